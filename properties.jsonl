{"id": "C01", "title": "Integer shifts are exact cyclic rolls", "statement": "shiftnd(data, offset) with whole-pixel offsets returns, at every pixel x, the (NaN->0) input pixel at (x - offset) modulo the array shape, i.e. np.roll; with a phase argument the real output is that roll times cos(phase).", "quantifier": "every array of every dimensionality and shape, every tuple of integer offsets (any size or sign), every phase", "why_tests_cant": "infinitely many shapes/offsets and dimensionalities; tests compare a few Gaussians to a 0.05 tolerance", "anchors": ["image_registration/fft_tools/shift.py:shiftnd"]}
{"id": "C02", "title": "Shifts compose and invert (complex output)", "statement": "With return_real=False, shifting by a (phase p) and then by b (phase q) equals one shift by a+b (phase p+q); hence shifting by -a undoes shifting by a exactly.", "quantifier": "every array, every dimensionality, every pair of real (sub-pixel) offsets and phases", "why_tests_cant": "a law over all pairs of real offsets on all arrays", "anchors": ["image_registration/fft_tools/shift.py:shiftnd"]}
{"id": "C03", "title": "Shifts compose and invert (real output)", "statement": "With the default return_real=True, shift(shift(x,a),b) = shift(x,a+b), so a corrected image can be un-shifted.  True when every axis has odd length, or when one of the two shifts is whole-pixel; false on even axes for fractional shifts (Nyquist term is lost).", "quantifier": "every real array, every real offsets", "why_tests_cant": "holds/fails depending on parity of the size and fractional part; tests use smooth Gaussians where the Nyquist term is negligible", "anchors": ["image_registration/fft_tools/shift.py:shiftnd"]}
{"id": "C04", "title": "Shifting conserves flux and energy", "statement": "shiftnd leaves the sum of the image unchanged for every offset (phase 0); with return_real=False the sum of |pixel|^2 is unchanged for every offset and phase; with real output it never increases, and is unchanged when all axes are odd; a zero offset returns the image itself.", "quantifier": "every array, dimensionality, real offset", "why_tests_cant": "quantifies over all real offsets and arrays", "anchors": ["image_registration/fft_tools/shift.py:shiftnd"]}
{"id": "C05", "title": "Shifts are periodic in the offset", "statement": "Adding any integer multiple of the axis length to an offset does not change the result of shiftnd.", "quantifier": "every array, offset, multiple and axis", "why_tests_cant": "unbounded multiples of every size", "anchors": ["image_registration/fft_tools/shift.py:shiftnd"]}
{"id": "C06", "title": "Shifting is linear", "statement": "shiftnd(a*x + b*y, d) = a*shiftnd(x,d) + b*shiftnd(y,d).", "quantifier": "every pair of NaN-free arrays of equal shape, all scalars, all offsets and phases", "why_tests_cant": "universally quantified algebraic law", "anchors": ["image_registration/fft_tools/shift.py:shiftnd"]}
{"id": "C07", "title": "shift2d is shiftnd with swapped arguments", "statement": "shift2d(data, deltax, deltay, ...) returns exactly shiftnd(data, (deltay, deltax), ...) for every flag combination and raises ValueError on inputs that are not 2-D.", "quantifier": "every 2-D array, offsets, phase, flags", "why_tests_cant": "equivalence of two implementations on all inputs", "anchors": ["image_registration/fft_tools/shift.py:shift2d", "image_registration/fft_tools/shift.py:shiftnd"]}
{"id": "C08", "title": "NaNs count as zero; shape and flags behave", "statement": "shiftnd gives the same output as on the input with each NaN replaced by 0; output shape = input shape; return_real wins over return_abs, which wins over complex; offsets beyond the number of axes are ignored and missing ones count as 0.", "quantifier": "every NaN pattern, array, offset list of any length, flags", "why_tests_cant": "all NaN masks/flag combinations/offset lengths", "anchors": ["image_registration/fft_tools/shift.py:shiftnd"]}
{"id": "C09", "title": "FFT backend does not change results", "statement": "get_ffts returns a forward transform that is the DFT and an inverse normalised by 1/size such that inverse(forward(x)) = x, whichever of the has_fftw/use_numpy_fft/nthreads combinations selects the backend.", "quantifier": "every array, nthreads, flag and installation combination", "why_tests_cant": "needs installations with and without fftw and all inputs", "anchors": ["image_registration/fft_tools/fast_ffts.py:get_ffts"]}
{"id": "C10", "title": "Fourier interpolation reproduces the samples", "statement": "fourier_interp1d(data, out_x) at an integer coordinate t returns data[t mod n], and is periodic with period n in each coordinate.", "quantifier": "every 1-D array and every list of output coordinates", "why_tests_cant": "infinite inputs", "anchors": ["image_registration/fft_tools/scale.py:fourier_interp1d"]}
{"id": "C11", "title": "Band-limited signals are interpolated exactly", "statement": "If data are samples of a trigonometric polynomial with frequencies strictly below Nyquist, fourier_interp1d returns that polynomial's value at every real coordinate.", "quantifier": "every n, every such polynomial, every real coordinate", "why_tests_cant": "all real coordinates of all polynomials", "anchors": ["image_registration/fft_tools/scale.py:fourier_interp1d"]}
{"id": "C12", "title": "data_x re-gridding and shape validation", "statement": "With strictly increasing data_x, asking for out_x equal to the data_x nodes returns the data; coordinates left/right of the nodes clamp to the first/last sample; non-1-D out_x or mis-shaped data_x raise ValueError.", "quantifier": "every data, increasing data_x and out_x", "why_tests_cant": "all grids", "anchors": ["image_registration/fft_tools/scale.py:fourier_interp1d"]}
{"id": "C13", "title": "2-D interpolation is the separable interpolant", "statement": "fourier_interp2d(data, (ys,xs))[i,j] is the 2-D trigonometric interpolant of data at (ys[i],xs[j]); equals the pixel at integer coordinates; index-array and pair-of-lists forms agree; wrong number of index arrays raises ValueError.", "quantifier": "every 2-D array and coordinates", "why_tests_cant": "all arrays and both calling conventions", "anchors": ["image_registration/fft_tools/scale.py:fourier_interp2d"]}
{"id": "C14", "title": "Shift and interpolation agree", "statement": "shiftnd(data,d)[x] equals Fourier interpolation of data at coordinate x-d (1-D and 2-D).", "quantifier": "every real array, real offset, pixel", "why_tests_cant": "relates two modules for all inputs", "anchors": ["image_registration/fft_tools/shift.py:shiftnd", "image_registration/fft_tools/scale.py:fourier_interp1d", "image_registration/fft_tools/scale.py:fourier_interp2d"]}
{"id": "C15", "title": "Zoom output coordinates", "statement": "zoom1d/zoom_on_pixel/zoomnd with return_xouts return coordinates forming a uniform grid with spacing 1/usfac centred on the requested pixel (array middle + offset) on every axis, increasing when usfac>0.", "quantifier": "every input shape, output shape >= 1, usfac <> 0, target", "why_tests_cant": "all sizes/real factors", "anchors": ["image_registration/fft_tools/zoom.py:zoom1d", "image_registration/fft_tools/zoom.py:zoom_on_pixel", "image_registration/fft_tools/zoom.py:zoomnd"]}
{"id": "C16", "title": "Zoom by 1 is the identity", "statement": "zoom1d and zoomnd with default arguments (usfac=1, same size, no offset) return the input image and its pixel indices as coordinates.", "quantifier": "every 1-D and 2-D real array", "why_tests_cant": "all arrays; a test fixed only the coordinates", "anchors": ["image_registration/fft_tools/zoom.py:zoom1d", "image_registration/fft_tools/zoom.py:zoomnd"]}
{"id": "C17", "title": "Zoomed values match their coordinates", "statement": "Every value returned by zoom1d/zoom_on_pixel is the trigonometric interpolant of the input at the coordinate returned beside it; if that coordinate is an in-range integer pixel it is that pixel's value.", "quantifier": "every array, factor, target, output size", "why_tests_cant": "all real coordinates", "anchors": ["image_registration/fft_tools/zoom.py:zoom_on_pixel"]}
{"id": "C18", "title": "zoom1d, zoomnd agree; argument validation", "statement": "zoom1d(inp, usfac, outsize, offset) = zoomnd(inp, offsets=(offset,), usfac, outshape=(outsize,)); wrong number of offsets raises ValueError; 3-D or more raises NotImplementedError; an output shape with fewer entries than the data have axes (first entry not 1) raises ValueError.  Fails for a one-pixel 1-D zoom: zoomnd raises ValueError where zoom1d succeeds.", "quantifier": "every 1-D array, factor, offset, output size", "why_tests_cant": "equivalence on all inputs incl. degenerate size", "anchors": ["image_registration/fft_tools/zoom.py:zoom1d", "image_registration/fft_tools/zoom.py:zoomnd"]}
{"id": "C19", "title": "dftups equals the zero-padded DFT window", "statement": "dftups(inp, nor, noc, usfac, roff, coff)[r,c] equals element ((r-roff) mod usfac*nr, (c-coff) mod usfac*nc) of the FFT of inp embedded (DC-centred) in an array usfac times larger.", "quantifier": "every complex array, integer usfac>=1, integer offsets, window sizes", "why_tests_cant": "documented equivalence over all sizes and parities", "anchors": ["image_registration/fft_tools/upsample.py:dftups"]}
{"id": "C20", "title": "Upsampling preserves the original samples", "statement": "upsample_image(image,u)[u*r,u*c] = image[r,c] for every u; upsample_factor=1 returns the image; general pixel is the interpolant at ((r-yshift)/u,(c-xshift)/u).  The docstring's 'all reals' is false: the output is complex with non-zero imaginary part for some even-sized images.", "quantifier": "every image, integer factor, real shifts", "why_tests_cant": "all images/factors", "anchors": ["image_registration/fft_tools/upsample.py:upsample_image"]}
{"id": "C21", "title": "1-D and legacy variants", "statement": "dftups1d(inp,u,m,offset) evaluates the DFT sum at coordinates (j+offset)/u and returns those coordinates; odddftups returns exactly what dftups returns.", "quantifier": "every array and parameters", "why_tests_cant": "equivalence of implementations", "anchors": ["image_registration/fft_tools/upsample.py:dftups1d", "image_registration/fft_tools/upsample.py:odddftups"]}
{"id": "C22", "title": "2-D downsampling is block estimation with cropping", "statement": "downsample(arr,f,est) has shape (ny//f, nx//f) and each output pixel is est of exactly the f*f input pixels of its block, trailing rows/columns dropped; factor 0 raises ZeroDivisionError, negative factors raise ValueError.", "quantifier": "every 2-D array, factor, estimator", "why_tests_cant": "all shapes/factors", "anchors": ["image_registration/fft_tools/downsample.py:downsample"]}
{"id": "C23", "title": "Block averaging conserves the mean", "statement": "With the default nanmean: a constant image stays constant; factor 1 is the identity; outputs lie between the block's min and max; NaN pixels are ignored (all-NaN blocks give NaN); when f divides both axes and no NaN is present, mean(out)=mean(in).", "quantifier": "every image and factor", "why_tests_cant": "all images", "anchors": ["image_registration/fft_tools/downsample.py:downsample"]}
{"id": "C24", "title": "Axis downsampling truncates or pads", "statement": "downsample_axis(arr,f,axis) averages consecutive groups of f along axis only; truncate=True drops the remainder, otherwise the last group averages just the remaining pixels, giving floor/ceil(n/f) outputs.  Raises IndexError on numpy >= 1.23 (list used as an index).", "quantifier": "every N-D array, axis, factor", "why_tests_cant": "all shapes, axes, remainders", "anchors": ["image_registration/fft_tools/downsample.py:downsample_axis"]}
{"id": "C25", "title": "downsample_1d and downsample_cube work", "statement": "downsample_1d averages groups of a 1-D array and downsample_cube averages the last two axes.  FALSE: every call raises (UnboundLocalError / NameError).  Under python -O, which drops the failing assert, downsample_1d does average groups of a 1-D array; on arrays of higher rank it averages along the first axis when the factor divides it and raises ValueError otherwise.", "quantifier": "every argument", "why_tests_cant": "a claim about all inputs; no test calls them", "anchors": ["image_registration/fft_tools/downsample.py:downsample_1d", "image_registration/fft_tools/downsample.py:downsample_cube"]}
{"id": "C26", "title": "Fill-boundary convolution never wraps", "statement": "convolvend(array,kernel,boundary='fill',fill_value=v) returns at each pixel sum_k kernel[k]*A(x-(k-nk//2)) with A = array inside and v outside, whatever the fft_pad setting, sizes and parities.", "quantifier": "every N-D array and kernel of any sizes, any fill value", "why_tests_cant": "padding/wrap arithmetic over all sizes and parities", "anchors": ["image_registration/fft_tools/convolve_nd.py:convolvend"]}
{"id": "C27", "title": "Wrap-boundary convolution is circular", "statement": "convolvend(array,kernel,boundary='wrap') with kernel no larger than the array is circular convolution centred on kernel pixel nk//2.", "quantifier": "every N-D array/kernel", "why_tests_cant": "all sizes and parities", "anchors": ["image_registration/fft_tools/convolve_nd.py:convolvend"]}
{"id": "C28", "title": "Output geometry of convolvend", "statement": "With crop=True the output shape is the array's shape (even when the kernel is larger); a kernel that is 1 at nk//2 and 0 elsewhere returns the NaN->0 array; mismatched dimensionality raises; 'extend' raises NotImplementedError.", "quantifier": "every array/kernel shapes", "why_tests_cant": "all shapes", "anchors": ["image_registration/fft_tools/convolve_nd.py:convolvend"]}
{"id": "C29", "title": "Normalised kernels conserve", "statement": "With normalize_kernel=True and boundary='wrap', a constant image is returned unchanged and the total flux is conserved.", "quantifier": "every array and kernel with non-zero sum", "why_tests_cant": "all inputs", "anchors": ["image_registration/fft_tools/convolve_nd.py:convolvend"]}
{"id": "C30", "title": "NaN interpolation is weighted averaging", "statement": "With interpolate_nan=True and a normalised kernel each output pixel is the kernel-weighted mean of the valid neighbours; zero-weight pixels are 0 when min_wt=0, and pixels with weight below min_wt are NaN.", "quantifier": "every NaN mask, kernel, min_wt", "why_tests_cant": "all masks", "anchors": ["image_registration/fft_tools/convolve_nd.py:convolvend"]}
{"id": "C31", "title": "convolvend leaves the caller's arrays intact", "statement": "After convolvend returns (or raises), a complex array/kernel passed by the caller has its original contents.  FALSE for a complex kernel containing NaN when normalize_kernel is set (NaNs stay 0) and for the array on the NaN ValueError path.", "quantifier": "every input, flag and exit path", "why_tests_cant": "aliasing and crash points", "anchors": ["image_registration/fft_tools/convolve_nd.py:convolvend"]}
{"id": "C32", "title": "correlate2d is circular cross-correlation", "statement": "correlate2d(im1,im2)[k,l] = sum_ij im1[i,j]*im2[(i+cy-k) mod ny,(j+cx-l) mod nx] with cy=(ny-1)//2, cx=(nx-1)//2: zero lag sits at ((ny-1)//2,(nx-1)//2) for odd and even sizes alike.", "quantifier": "every pair of equal-shape real images", "why_tests_cant": "all sizes/parities", "anchors": ["image_registration/fft_tools/correlate2d.py:correlate2d"]}
{"id": "C33", "title": "The correlation of an image with its roll peaks at the roll", "statement": "If im2 is im1 rolled by (dy,dx), correlate2d(im1,im2) attains its maximum at zero-lag minus (dy,dx) modulo the shape, where it equals the image's energy.", "quantifier": "every image, every integer roll", "why_tests_cant": "all images", "anchors": ["image_registration/fft_tools/correlate2d.py:correlate2d"]}
{"id": "C34", "title": "chi2n_map is the chi-squared of every shift", "statement": "chi2n_map(im1,im2,err)[k,l] equals sum_ij (im2[i,j] - im1 rolled by (cy-k,cx-l)[i,j])^2/err[i,j]^2, for scalar, None and per-pixel errors.", "quantifier": "every pair of images and non-zero error maps, every shift pixel", "why_tests_cant": "an identity between FFT algebra and the definition, for all inputs", "anchors": ["image_registration/chi2_shifts.py:chi2n_map"]}
{"id": "C35", "title": "chi2 is non-negative and zero exactly at a perfect match", "statement": "Every entry of chi2n_map is >= 0; it is 0 at a shift iff im2 equals im1 moved by that shift; with reduced=True it is divided by (number of pixels - 2).", "quantifier": "all images, errors, shifts", "why_tests_cant": "all inputs", "anchors": ["image_registration/chi2_shifts.py:chi2n_map"]}
{"id": "C36", "title": "Pixels with zero/NaN error are ignored", "statement": "A pixel whose error is 0 or NaN has no influence on chi2.  TRUE of that pixel's own data values at zero shift; FALSE at other shifts: the masked pixel contributes the shifted reference image with weight 1.", "quantifier": "all error maps", "why_tests_cant": "depends on mask and shift together", "anchors": ["image_registration/chi2_shifts.py:chi2n_map"]}
{"id": "C37", "title": "chi2n_map argument handling", "statement": "Different shapes raise ValueError; return_all returns (chi2,term1,term2,term3) with chi2=term1+term2+term3; negative errors act as positive; more pixels than astropy's FFT size limit (default 1 GB of complex values) raise ValueError unless allow_huge.", "quantifier": "all arguments", "why_tests_cant": "all shapes incl. huge ones", "anchors": ["image_registration/chi2_shifts.py:chi2n_map"]}
{"id": "C38", "title": "chi2_shift recovers whole-pixel shifts exactly when a grid node exists", "statement": "For im2 = im1 rolled by (dy,dx) (constant errors), odd square images with an integer factor below the size, or even square images with an odd integer factor: Fourier-shifting im1 by the returned (dx,dy) reproduces im2 exactly, and the result is the roll itself (in the centred range) unless im1 has a translational symmetry; for odd sizes the same holds for sub-pixel shifts lying on the final grid.", "quantifier": "all sizes, images, rolls and factors", "why_tests_cant": "all images and rolls", "anchors": ["image_registration/chi2_shifts.py:chi2_shift"]}
{"id": "C39", "title": "chi2_shift quantisation and window", "statement": "The returned shifts lie on a grid of spacing 1/upsample_factor, inside the documented window around the coarse whole-pixel minimum, minimise the interpolated chi2 over that grid, and when an axis gets no node on a whole pixel (odd size with an even number of nodes, or even size with factor plus number of nodes even - in particular every integer factor >= the image height on odd sizes, or when even) a whole-pixel true shift is always missed by at least 1/(2*upsample_factor).", "quantifier": "all images, sizes, factors", "why_tests_cant": "all inputs", "anchors": ["image_registration/chi2_shifts.py:chi2_shift"]}
{"id": "C40", "title": "Automatic upsampling never fails", "statement": "With upsample_factor='auto' the chosen region size is >= 1 pixel, the factor is >= 1, no division by zero happens, and unless clipped the window spans (max_auto_size-1)/max_auto_size times twice the region.", "quantifier": "all chi2 maps and max_auto_size", "why_tests_cant": "all maps", "anchors": ["image_registration/chi2_shifts.py:chi2_shift"]}
{"id": "C41", "title": "The sub-pixel window covers the half-pixel neighbourhood", "statement": "The zoomed grid always covers +-1/2 pixel around the coarse minimum on both axes so every sub-pixel shift is reachable.  FALSE: even images are zoomed off-centre by 1/2 pixel and non-square images get a window narrower than a pixel on the short axis.", "quantifier": "all sizes and factors", "why_tests_cant": "size/factor interaction", "anchors": ["image_registration/chi2_shifts.py:chi2_shift"]}
{"id": "C42", "title": "Error bars are well-formed", "statement": "chi2map_to_errors returns four non-negative numbers no larger than the map extent/zoomfactor, non-decreasing in the threshold, inversely proportional to zoomfactor and unchanged by adding a constant to the map.", "quantifier": "every map, zoomfactor>0, positive threshold", "why_tests_cant": "all maps", "anchors": ["image_registration/chi2_shifts.py:chi2map_to_errors"]}
{"id": "C43", "title": "chi2_shift invariances and return layout", "statement": "With zeromean=True adding constants to either image changes nothing; scaling a scalar error leaves the shifts unchanged (explicit factor); the list returned has 2, 4, or +1 entries according to return_error/return_chi2array; nfitted never changes the error bars for an explicit factor.", "quantifier": "all images, constants, flags", "why_tests_cant": "all inputs", "anchors": ["image_registration/chi2_shifts.py:chi2_shift"]}
{"id": "C44", "title": "chi2_shift_iterzoom returns the shift", "statement": "chi2_shift_iterzoom(im1,im2) returns the offset of im2.  FALSE: every call raises NameError (allow_huge is not a parameter), so register_fits with its default method fails too.", "quantifier": "every argument", "why_tests_cant": "statement about all calls", "anchors": ["image_registration/chi2_shifts.py:chi2_shift_iterzoom", "image_registration/FITS_tools/match_images.py:register_fits"]}
{"id": "C45", "title": "cross_correlation_shifts recovers whole-pixel rolls (even sizes)", "statement": "For even-sized images with im2 = im1 rolled by (dy,dx) with the correlation peak unique, interior and non-degenerate, the returned (x,y) is exactly (dx,dy) reduced to the centred range.", "quantifier": "all even sizes, images, rolls", "why_tests_cant": "all images and rolls", "anchors": ["image_registration/cross_correlation_shifts.py:cross_correlation_shifts"]}
{"id": "C46", "title": "cross_correlation_shifts is unbiased for odd sizes", "statement": "Same for odd-sized images.  FALSE: the integer centre is computed with true division, so every odd axis is reported +1/2 pixel too large.", "quantifier": "all odd sizes", "why_tests_cant": "parity; all images", "anchors": ["image_registration/cross_correlation_shifts.py:cross_correlation_shifts"]}
{"id": "C47", "title": "Sub-pixel refinement is exact on quadratic peaks", "statement": "If the correlation is exactly quadratic around its peak the Taylor refinement returns the true vertex.  FALSE in general: second derivatives are unpacked in the wrong order and the mixed derivative has the wrong sign; true for isotropic uncorrelated peaks.", "quantifier": "all quadratics", "why_tests_cant": "all real coefficients", "anchors": ["image_registration/cross_correlation_shifts.py:cross_correlation_shifts", "image_registration/cross_correlation_shifts.py:second_derivative"]}
{"id": "C48", "title": "second_derivative computes finite differences", "statement": "At interior pixels second_derivative returns the central second differences along x, along y, and the mixed difference.  The mixed one has the opposite sign; out-of-range neighbours count as 0.", "quantifier": "all images and pixels", "why_tests_cant": "all images", "anchors": ["image_registration/cross_correlation_shifts.py:second_derivative"]}
{"id": "C49", "title": "maxoff limits the search (cross-correlation)", "statement": "With maxoff the peak is searched only within +-maxoff pixels.  FALSE: any call with maxoff on images with signal raises TypeError (float slice indices).", "quantifier": "all images, maxoff", "why_tests_cant": "all inputs", "anchors": ["image_registration/cross_correlation_shifts.py:cross_correlation_shifts"]}
{"id": "C50", "title": "Degenerate inputs of cross_correlation_shifts", "statement": "No signal returns (0,0) (even with return_error); a peak on the first row/column raises ValueError instead of a shift; shape mismatch raises ValueError; results are invariant under adding constants (zeromean) and, without a Gaussian fit (see C114), under positive scaling.", "quantifier": "all images", "why_tests_cant": "all inputs", "anchors": ["image_registration/cross_correlation_shifts.py:cross_correlation_shifts"]}
{"id": "C51", "title": "register_images recovers whole-pixel rolls (usfac=1)", "statement": "register_images(im, roll(im,(dy,dx))) returns [dx,dy] reduced to the centred range when the autocorrelation peak is unique.", "quantifier": "all sizes, images, rolls", "why_tests_cant": "all images and rolls", "anchors": ["image_registration/register_images.py:register_images", "image_registration/register_images.py:dftregistration"]}
{"id": "C52", "title": "register_images recovers rolls at every upsampling factor", "statement": "The same holds for every non-zero integer usfac (and any usfac<=2) when no Fourier shift reproduces the image up to a unit factor: the true shift lies on the final grid and |CC| is maximal there.  FALSE for non-integer usfac>2 (the grid can miss whole pixels).", "quantifier": "all sizes, images, rolls, factors", "why_tests_cant": "all factors", "anchors": ["image_registration/register_images.py:register_images", "image_registration/fft_tools/upsample.py:dftups"]}
{"id": "C53", "title": "register_images maximises the correlation on its grid", "statement": "The returned shift is a point of a grid of spacing 1/usfac within 3/4 pixel (plus rounding) of the coarse half-pixel estimate and maximises |cross-correlation interpolant| over it.", "quantifier": "all images, factors", "why_tests_cant": "all inputs", "anchors": ["image_registration/register_images.py:dftregistration"]}
{"id": "C54", "title": "maxoff limits the search (register_images)", "statement": "For usfac=1 and 1<=maxoff the reported shift has absolute value <= maxoff on both axes; for usfac=2 it is <= maxoff/2.  maxoff=0 imposes no limit.", "quantifier": "all images, sizes, maxoff", "why_tests_cant": "all inputs", "anchors": ["image_registration/register_images.py:dftregistration"]}
{"id": "C55", "title": "The registered image is im2 aligned to im1", "statement": "register_images(..., return_registered=True) returns im2 shifted onto im1.  FALSE: the result is additionally rolled by half the image (ifftshift) and made absolute.", "quantifier": "all images", "why_tests_cant": "all images", "anchors": ["image_registration/register_images.py:register_images"]}
{"id": "C56", "title": "register_images interface", "statement": "Shape mismatch and usfac=0 raise ValueError; return_error appends 1/usfac twice; single-row/column images report 0 on that axis (usfac<>1); adding constants (zeromean) and multiplying by non-zero constants of either sign does not change the shift.", "quantifier": "all images, flags, constants", "why_tests_cant": "all inputs", "anchors": ["image_registration/register_images.py:register_images"]}
{"id": "C57", "title": "iterative_zoom terminates", "statement": "For zoomstep>1 and mindiff>0 the zoom loop of iterative_zoom and iterative_zoom_1d stops after finitely many iterations (explicit bound from the image); for zoomstep=1 it can run forever.", "quantifier": "all images, zoomshape, zoomstep, mindiff", "why_tests_cant": "termination for all inputs", "anchors": ["image_registration/iterative_zoom.py:iterative_zoom", "image_registration/iterative_zoom.py:iterative_zoom_1d"]}
{"id": "C58", "title": "iterative_zoom stays near the pixel minimum", "statement": "The returned centre is within (zoomshape-1)/2/(zoomstep-1) pixels of the whole-pixel minimum on each axis, the zoom factor is zoomstep^iterations, and offset = centre - (n-1)/2.", "quantifier": "all images and iteration counts", "why_tests_cant": "invariant over all iterations", "anchors": ["image_registration/iterative_zoom.py:iterative_zoom"]}
{"id": "C59", "title": "iterative_zoom edge behaviour", "statement": "Constant images raise ValueError; when the smallest non-zero difference is already <= mindiff, return_center=True raises UnboundLocalError and return_center=False returns offset 0 wherever the minimum is (so 'returns the minimum position' is FALSE).  Images that are not 2-D never zoom: empty, constant or NaN-holding ones raise ValueError, small differences give zeros (or UnboundLocalError), larger ones raise IndexError (1-D), ValueError or NotImplementedError (3-D and more); iterative_zoom_1d likewise for data that are not 1-D.", "quantifier": "all images", "why_tests_cant": "all inputs", "anchors": ["image_registration/iterative_zoom.py:iterative_zoom"]}
{"id": "C60", "title": "make_kernel normalises and centres", "statement": "Gaussian/boxcar/tophat kernels with the default normalisation sum to 1; Gaussian peaks at n//2; boxcar is 1/w^d on the w pixels from n//2-w//2; force_odd gives odd shape; trapezoids are flat inside w and fall linearly outside; unknown types, missing slope and airy raise.  (numpy >= 1.23 rejects the list index of the boxcar branch: IndexError.)", "quantifier": "all shapes and widths", "why_tests_cant": "all shapes", "anchors": ["image_registration/fft_tools/smooth_tools.py:make_kernel"]}
{"id": "C61", "title": "tophat/boxcar kernels are centred on the FFT origin", "statement": "Smoothing kernels are symmetric about pixel n//2 so that smoothing does not shift the image.  True for every gaussian, for tophats on odd sizes and for boxcars of odd width no wider than the shape.  FALSE for tophats on even sizes (centred on (n-1)/2), boxcars of even width, and boxcars wider than the shape (the start index wraps: width 6 on 4 pixels puts everything on the last pixel).", "quantifier": "all shapes and widths", "why_tests_cant": "parity", "anchors": ["image_registration/fft_tools/smooth_tools.py:make_kernel"]}
{"id": "C62", "title": "smooth returns a smoothed image", "statement": "smooth(image,...) returns an image of the same shape.  FALSE on the supported Pythons: every call raises (dict.has_key, float sizes).", "quantifier": "every argument", "why_tests_cant": "all calls", "anchors": ["image_registration/fft_tools/smooth_tools.py:smooth"]}
{"id": "C63", "title": "header_overlap builds the enclosing/common box", "statement": "For headers needing no wrap, union gives a box containing both footprints and intersection the common box; footprints without a common point along an axis give size 0 on it (so their union is FALSE: the result is empty); the result is symmetric in box and size and pixel scale magnitude is the finer of the two (FALSE when only one header has a CD matrix); other overlap strings raise ValueError; whole turns of longitude do not matter, but a footprint straddling the wrap longitude is misplaced.", "quantifier": "all linear headers", "why_tests_cant": "all real corner values", "anchors": ["image_registration/FITS_tools/fits_overlap.py:header_overlap"]}
{"id": "C64", "title": "header_overlap sizes cover the box", "statement": "NAXIS*|CDELT| is at least the box width and less than one pixel more; the box centre is CRVAL and CRPIX=NAXIS/2; CDi_j keys are removed and other cards kept.", "quantifier": "all headers", "why_tests_cant": "all inputs", "anchors": ["image_registration/FITS_tools/fits_overlap.py:header_overlap"]}
{"id": "C65", "title": "match_fits returns equal-shape images and honours sigma_cut", "statement": "match_fits either raises ValueError or returns two images of identical shape; with sigma_cut every pixel is either the original or 0, pixels above threshold are kept, and if the cut leaves no common signal the uncut images are returned.", "quantifier": "all images, cuts", "why_tests_cant": "all inputs", "anchors": ["image_registration/FITS_tools/match_images.py:match_fits"]}
{"id": "C66", "title": "register_fits output layout", "statement": "register_fits returns xoff,yoff,xoff*cdelt1,yoff*cdelt2 followed by exactly the requested extras in the documented order, and the shifted image is shift2d(image2,-xoff,-yoff).", "quantifier": "all flags and register methods", "why_tests_cant": "2^4 flag combinations with arbitrary methods", "anchors": ["image_registration/FITS_tools/match_images.py:register_fits"]}
{"id": "C67", "title": "cross_correlation_shifts_FITS world offsets", "statement": "World offsets are (xoff*CD1_1, yoff*CD2_2), or (0,0) when the header has no CD matrix; sigma_cut falls back when it removes all common signal; unequal shapes raise ValueError.", "quantifier": "all CD matrices/offsets", "why_tests_cant": "all inputs", "anchors": ["image_registration/cross_correlation_shifts.py:cross_correlation_shifts_FITS"]}
{"id": "C68", "title": "load_header/load_data/get_cd dispatch", "statement": "Headers, HDUs, FITS paths, text headers and header strings are tried in that order; arrays are returned unchanged; get_cd returns the diagonal CD element, CDELT when there is no CD matrix, and None (a gap) when the CD element is 0.", "quantifier": "all argument kinds", "why_tests_cant": "all combinations of kinds and failures", "anchors": ["image_registration/FITS_tools/load_header.py:load_header", "image_registration/FITS_tools/load_header.py:load_data", "image_registration/FITS_tools/load_header.py:get_cd"]}
{"id": "C69", "title": "Registration functions do not modify their inputs", "statement": "chi2n_map, chi2_shift, register_images, cross_correlation_shifts, shiftnd leave every buffer of the caller unchanged, even if the same array is passed for several arguments.  chi2_shift_leastsq is an exception: it overwrites the caller's error map where im2 is NaN.", "quantifier": "all heaps, aliasings, NaN patterns", "why_tests_cant": "aliasing and all contents", "anchors": ["image_registration/chi2_shifts.py:chi2n_map", "image_registration/chi2_shifts.py:chi2_shift_leastsq", "image_registration/register_images.py:register_images", "image_registration/fft_tools/shift.py:shiftnd"]}
{"id": "C70", "title": "All methods agree in sign and axis order", "statement": "On a whole-pixel roll for which each succeeds, chi2_shift, register_images and cross_correlation_shifts (even sizes) all report x first, then y, with the same sign; shifting im2 by minus the result restores im1 (README recipe).", "quantifier": "all images and rolls", "why_tests_cant": "all inputs", "anchors": ["image_registration/chi2_shifts.py:chi2_shift", "image_registration/register_images.py:register_images", "image_registration/cross_correlation_shifts.py:cross_correlation_shifts", "image_registration/fft_tools/shift.py:shiftnd"]}
{"id": "C71", "title": "Exchanging the images negates the cross-correlation shift", "statement": "For even-sized images whose cross-correlation has a strict maximum inside the map, cross_correlation_shifts(im2,im1) = -cross_correlation_shifts(im1,im2), sub-pixel part included.", "quantifier": "all even sizes, all images", "why_tests_cant": "all inputs", "anchors": ["image_registration/cross_correlation_shifts.py:cross_correlation_shifts"]}
{"id": "C72", "title": "The cross-correlation error estimate is independent of the image units", "statement": "Multiplying both images by the same positive constant leaves the errors reported by cross_correlation_shifts(return_error=True) unchanged.  FALSE: the normalisation divides by the product of the mean squares instead of its square root.", "quantifier": "all images and factors", "why_tests_cant": "all inputs", "anchors": ["image_registration/cross_correlation_shifts.py:cross_correlation_shifts"]}
{"id": "C73", "title": "register_images: swapping the images negates the shift", "statement": "When |cross-correlation| has a unique whole-pixel maximum, register_images(im2, im1) reports the negated shift of register_images(im1, im2), except that the half-size shift -n/2 of an even axis stays -n/2.", "quantifier": "all image pairs with a unique peak", "why_tests_cant": "all images", "anchors": ["image_registration/register_images.py:register_images"]}
{"id": "C74", "title": "iterative_zoom improves on the best pixel", "statement": "The trigonometric interpolant of the image at the centre returned by iterative_zoom is at least as good as every pixel.  TRUE for odd zoomshape; FALSE for even zoomshape (the default 10x10 is even): the zoom grid then misses its own centre.", "quantifier": "all images, odd/even zoom shapes, any number of iterations", "why_tests_cant": "invariant over all iterations", "anchors": ["image_registration/iterative_zoom.py:iterative_zoom", "image_registration/iterative_zoom.py:iterative_zoom_1d"]}
{"id": "C75", "title": "Overlapping a header with itself reproduces its footprint", "statement": "header_overlap(h, h) has as many pixels as h and the same pixel positions.  FALSE: NAXIS is one less along each axis and pixel q of the result is where pixel q+1 of h was.", "quantifier": "all linear headers", "why_tests_cant": "all sizes, scales and reference values", "anchors": ["image_registration/FITS_tools/fits_overlap.py:header_overlap"]}
{"id": "C76", "title": "Any shift function can be the register_method", "statement": "register_fits and cross_correlation_shifts_FITS work with any of the shift functions of the package.  FALSE: the default of register_fits (chi2_shift_iterzoom) always raises NameError, register_images and cross_correlation_shifts raise TypeError; only chi2_shift works.", "quantifier": "all files, headers and options", "why_tests_cant": "all inputs", "anchors": ["image_registration/FITS_tools/match_images.py:register_fits", "image_registration/cross_correlation_shifts.py:cross_correlation_shifts_FITS"]}
{"id": "C77", "title": "chi2_shift_leastsq works with its default arguments", "statement": "chi2_shift_leastsq(im1, im2) returns a shift.  FALSE: with maxoff, or with ignore_outside=True (the default), every call raises TypeError at the first evaluation of the residuals (float slice bounds), after the error map has already been overwritten.", "quantifier": "all images, error maps, optimisers and options", "why_tests_cant": "all inputs and every behaviour of the external optimiser", "anchors": ["image_registration/chi2_shifts.py:chi2_shift_leastsq"]}
{"id": "C78", "title": "chi2_shift_leastsq minimises the mismatch with the common sign convention", "statement": "With use_fft=True, ignore_outside=False and no maxoff, the residual given to lmfit at (x, y) is |im1 - im2 Fourier-shifted by (-x,-y)|/sqrt(size)/err of the mean-subtracted images; if im2 is im1 rolled by (dy,dx) it vanishes at x=dx, y=dy and, for images without translational symmetry, only there up to whole periods.", "quantifier": "all 2-D images, scalar errors, optimisers", "why_tests_cant": "all images and all shifts", "anchors": ["image_registration/chi2_shifts.py:chi2_shift_leastsq"]}
{"id": "C79", "title": "fourier_interpnd is the n-dimensional interpolation", "statement": "fourier_interpnd(data, outinds) evaluates the trigonometric interpolant of an n-dimensional array.  TRUE for 2-D data where numpy still accepts lists of slices as an index (then it returns, or raises, exactly what fourier_interp2d does); with current numpy every call raises, and 1-D data and cubes with coordinate lists always raise.", "quantifier": "all arrays of any dimension, all coordinates, transforms and options", "why_tests_cant": "all sizes, dimensions and coordinates", "anchors": ["image_registration/fft_tools/scale.py:fourier_interpnd", "image_registration/fft_tools/scale.py:fourier_interp2d"]}
{"id": "C80", "title": "convolvend: every option has a spatial-domain meaning", "statement": "For every boundary except extend, every padding flag, NaN interpolation, edge handling, kernel normalisation (none, True, a function) and cropping, pixel x of the result is the sum over kernel pixels of the padded periodic image divided by the normalisation; with interpolate_nan or ignore_edge_zeros and a normalised kernel it is further divided by the kernel-weighted fraction of valid pixels (NaN below min_wt, 0 for zero weight when min_wt=0), otherwise not.  Cropped fill results are free of wrap-around; an un-normalisable kernel or a NaN fill value raises ValueError.", "quantifier": "all images and kernels of any dimension, all options", "why_tests_cant": "all inputs and all option combinations", "anchors": ["image_registration/fft_tools/convolve_nd.py:convolvend"]}
{"id": "C81", "title": "convolvend(return_fft=True) returns the transform of the convolution", "statement": "The inverse DFT of the array returned with return_fft=True, fftshift=False is the (real, un-reweighted) padded convolution that the same call returns with crop=False; fftshift=True rolls it by half the padded shape, and crop has an effect only together with fftshift.", "quantifier": "all images, kernels, boundaries, padding and normalisation options", "why_tests_cant": "all inputs", "anchors": ["image_registration/fft_tools/convolve_nd.py:convolvend"]}
{"id": "C82", "title": "Concurrent and earlier calls of convolvend do not influence each other", "statement": "convolvend rebinds the module globals fftn and ifftn and looks them up again for every transform; nevertheless, for every number of threads, every mixture of use_numpy_fft/nthreads and every interleaving (sequential histories included), each call finishes and returns or raises exactly what it does alone.", "quantifier": "all sets of concurrent calls, all interleavings of their accesses to the module globals", "why_tests_cant": "all schedules", "anchors": ["image_registration/fft_tools/convolve_nd.py:convolvend"]}
{"id": "C83", "title": "cross_correlation_shifts: each error estimate uses the curvature of its own axis", "statement": "With return_error=True the reported x error is the Zucker estimate built from the curvature of the correlation along x, and the y error the one along y.  FALSE: the two second derivatives are unpacked in the opposite order, so each axis reports the estimate of the other one (exact formulas proved).  Degenerate peaks are covered too: a normalised peak of exactly 1 - two equal images in units of mean square 1 - reports errors of exactly 0, zero curvature an infinite error, both a ValueError for the first error and a NaN for the second.", "quantifier": "all image pairs with an interior best roll", "why_tests_cant": "all images", "anchors": ["image_registration/cross_correlation_shifts.py:cross_correlation_shifts", "image_registration/cross_correlation_shifts.py:second_derivative"]}
{"id": "C84", "title": "cross_correlation_shifts: the error images affect the reported errors", "statement": "Passing errim1/errim2 changes the reported errors.  FALSE: for error images of the shape of the images, and for any two shapes numpy can broadcast with each other, every outcome (shift, errors, exception) is the same whatever they contain (except the error map handed to a Gaussian fit, see C114); two-dimensional error images whose shapes do not broadcast and error images of another rank raise ValueError.", "quantifier": "all images, error images and options", "why_tests_cant": "all inputs", "anchors": ["image_registration/cross_correlation_shifts.py:cross_correlation_shifts"]}
{"id": "C85", "title": "register_images registers to within 1/usfac of a pixel", "statement": "When im2 is im1 Fourier-shifted by a multiple of 1/usfac, register_images(usfac) returns that shift modulo the image size (or, for an image with a translational symmetry, a shift that maps im1 onto im2 up to a factor of modulus one).  TRUE for half-pixel shifts at every even factor, and for all grid shifts when the coarse half-pixel search ends within 3/4 - 1/usfac pixel of the true shift; FALSE in general: the coarse search maximises |correlation| on half pixels and can settle on another peak, here half a pixel off with usfac=4.", "quantifier": "all image pairs related by a Fourier shift, all factors, maxoff and options", "why_tests_cant": "all images and shifts", "anchors": ["image_registration/register_images.py:register_images", "image_registration/register_images.py:dftregistration"]}
{"id": "C86", "title": "make_kernel: the normalisation function decides the scale of the kernel", "statement": "With a normalize_kernel that returns the largest value (np.max) gaussian, tophat and boxcar kernels are the documented profile itself with peak exactly 1 (at the FFT origin for the gaussian).  FALSE for trapezoids: normalize_kernel is ignored and the sum is always used.  Widths that select no pixel (tophat of radius <= the distance of the nearest pixel centre, gaussian width 0, boxcar width 0 or -1) silently give kernels of NaN.", "quantifier": "all shapes of any dimension, widths and peak functions", "why_tests_cant": "all shapes and widths", "anchors": ["image_registration/fft_tools/smooth_tools.py:make_kernel"]}
{"id": "C87", "title": "convolvend treats masked pixels as NaN", "statement": "Masked pixels of the image or the kernel are turned into NaN, as the comment in the code says.  FALSE: np.asarray drops the mask first, so no outcome depends on a mask and the invalid values below it enter the result (under a delta kernel they come out unchanged).", "quantifier": "all masked arrays, kernels and options", "why_tests_cant": "all inputs", "anchors": ["image_registration/fft_tools/convolve_nd.py:convolvend"]}
{"id": "C88", "title": "chi2_shift_leastsq weights residuals with the error map", "statement": "With an error map (im2 free of NaN), use_fft=True, ignore_outside=False and no maxoff, the residual in each pixel is divided by the error map Fourier-shifted by the same trial shift as im2 (so a constant map acts as the scalar); with use_fft=False im2 is sampled by map_coordinates at (row+y, column+x), so that an interpolation exact on pixels fits a rolled image at the same (dx,dy) as the other methods.", "quantifier": "all 2-D images, error maps, trial shifts, optimisers and interpolators", "why_tests_cant": "all images, error maps and every behaviour of the external optimiser", "anchors": ["image_registration/chi2_shifts.py:chi2_shift_leastsq"]}
{"id": "C89", "title": "chi2n_map treats integer images like the same images in floating point", "statement": "For images of any integer dtype the map equals that of the images converted to float.  TRUE with zeromean=True, or when the squared pixel values fit the dtype.  Otherwise FALSE: squares wrap modulo 2^bits; with a scalar error this adds one constant to the whole map (minimum and differences right, values wrong: a perfect match of int16 images gets chi2 = -131072), with an error map even the minimum moves to the wrong shift.", "quantifier": "all integer dtypes, images, errors, sizes and options", "why_tests_cant": "all images and dtypes", "anchors": ["image_registration/chi2_shifts.py:chi2n_map"]}
{"id": "C90", "title": "Moving both images together changes nothing", "statement": "Rolling both images by the same (p,q) (and the error maps with them, where they are used) leaves the correlation map, the chi-squared map, and every outcome - offsets, error estimates or exception - of chi2_shift, cross_correlation_shifts and register_images (at every upsampling factor) exactly the same.", "quantifier": "all images with NaNs anywhere, sizes, rolls, factors and options", "why_tests_cant": "all images and rolls", "anchors": ["image_registration/fft_tools/correlate2d.py:correlate2d", "image_registration/chi2_shifts.py:chi2n_map", "image_registration/chi2_shifts.py:chi2_shift", "image_registration/cross_correlation_shifts.py:cross_correlation_shifts", "image_registration/register_images.py:register_images"]}
{"id": "C91", "title": "The two axes are treated alike", "statement": "Transposing both images (and the error map) transposes the correlation and chi-squared maps entry by entry, for non-square shapes too, and exchanges the two offsets (and error bars) returned by cross_correlation_shifts, chi2_shift and register_images, at every upsampling factor, whenever the best roll (and, above factor 1, the best node of the fine grid) is unique (for cross_correlation_shifts: and interior; for chi2_shift: with an automatic factor, or a factor on the same side of both image lengths, in particular for square images).  Otherwise FALSE for chi2_shift: for a factor of at least the image height but below its width two identical images of odd size without symmetry are found at a non-zero offset, their transposes at offset 0.", "quantifier": "all images, sizes, factors and options", "why_tests_cant": "all images and non-square shapes", "anchors": ["image_registration/fft_tools/correlate2d.py:correlate2d", "image_registration/chi2_shifts.py:chi2n_map", "image_registration/chi2_shifts.py:chi2_shift", "image_registration/cross_correlation_shifts.py:cross_correlation_shifts", "image_registration/register_images.py:register_images"]}
{"id": "C92", "title": "Mirroring both images is the same as exchanging them", "statement": "Reversing both axes of both images (about pixel (0,0), periodically) gives exactly what exchanging the two images gives: the same correlation map, the same chi-squared map and chi2_shift outcome (scalar errors), the same cross_correlation_shifts offsets and the same register_images outcome at every upsampling factor.", "quantifier": "all images with NaNs anywhere, odd and even sizes, factors and options", "why_tests_cant": "all images", "anchors": ["image_registration/fft_tools/correlate2d.py:correlate2d", "image_registration/chi2_shifts.py:chi2n_map", "image_registration/chi2_shifts.py:chi2_shift", "image_registration/cross_correlation_shifts.py:cross_correlation_shifts", "image_registration/register_images.py:register_images"]}
{"id": "C93", "title": "Chi-squared registration does not depend on the units", "statement": "Multiplying both images and the errors by the same k <> 0 leaves the chi-squared map and every outcome of chi2_shift (offsets, errors, exception) unchanged.  TRUE whenever no error pixel is zero or NaN; otherwise FALSE: such pixels are counted with error 1 in whatever units are used, and changing the units moves the minimum of the map to another roll.", "quantifier": "all images with NaNs anywhere, scalar and array errors, factors k and options", "why_tests_cant": "all images, error maps and units", "anchors": ["image_registration/chi2_shifts.py:chi2n_map", "image_registration/chi2_shifts.py:chi2_shift"]}
{"id": "C94", "title": "Registration survives noise up to half the distance between the image and its own rolls", "statement": "If im2 is a roll of im1 by (dy,dx) plus any perturbation whose sum of squares is less than a quarter of the squared distance between im1 and each of its own proper rolls, then the chi-squared map has its only minimum at that roll, chi2_shift stays within its fine window around it, register_images(usfac=1) returns exactly that roll (non-negative images, or the same bound against the negated image) and cross_correlation_shifts returns it plus its parabolic refinement.  The constant 1/4 cannot be improved: at equality a wrong roll can be returned.", "quantifier": "all images, perturbations (not necessarily random), sizes, rolls and options", "why_tests_cant": "all images and all perturbations within the bound", "anchors": ["image_registration/chi2_shifts.py:chi2n_map", "image_registration/chi2_shifts.py:chi2_shift", "image_registration/register_images.py:register_images", "image_registration/cross_correlation_shifts.py:cross_correlation_shifts"]}
{"id": "C95", "title": "The parabolic refinement of cross_correlation_shifts moves the offset by less than a pixel", "statement": "Refining the position of a unique, interior correlation peak changes it by at most one pixel.  FALSE: the quotient can be arbitrarily large: for every M there are 4x4 images with values in [0,10], with a unique best roll at zero, for which the returned offset exceeds M (each axis is refined with the curvature of the other axis).", "quantifier": "all bounds M", "why_tests_cant": "no finite set of images shows that the offset is unbounded", "anchors": ["image_registration/cross_correlation_shifts.py:cross_correlation_shifts"]}
{"id": "C96", "title": "The error bars of chi2_shift follow the error passed in", "statement": "With a scalar error a larger error gives the same offsets and error bars that are not smaller.  Error bars are quantised: if the minimum of the fine map is unique they are exactly zero for every error below some positive level; in particular for any exact roll of an odd square image that no shift reproduces.", "quantifier": "all images, error pairs, sizes, upsampling factors and options", "why_tests_cant": "all images and pairs of error levels", "anchors": ["image_registration/chi2_shifts.py:chi2_shift", "image_registration/chi2_shifts.py:chi2map_to_errors"]}
{"id": "C97", "title": "convolvend is linear and, with wrap, commutes with rolls and with itself", "statement": "Without NaN interpolation or edge weighting, convolving alpha*A + beta*B (with the fill value combined likewise) gives alpha times the convolution of A plus beta times that of B, in every pixel and for every boundary mode but extend.  With boundary=wrap and a kernel no larger than the image, convolving a rolled image gives the rolled convolution (under every option, NaN interpolation included), and convolving with two kernels in either order gives the same image.", "quantifier": "all images with NaNs anywhere, kernels, ranks, sizes, rolls and options", "why_tests_cant": "all images, kernels and ranks", "anchors": ["image_registration/fft_tools/convolve_nd.py:convolvend"]}
{"id": "C98", "title": "Smoothing with a non-negative kernel stays within the range of the image", "statement": "With a normalised kernel without negative values every output pixel lies between the smallest and the largest value of the image (NaN pixels counted as 0) and of what lies outside it; with wrap only the image counts; with NaN interpolation only the valid pixels count, and every output pixel is in their range, or NaN (or 0 when min_wt=0 and there is nothing valid in reach).", "quantifier": "all images with NaNs anywhere, kernels, ranks, sizes and options", "why_tests_cant": "all images and kernels", "anchors": ["image_registration/fft_tools/convolve_nd.py:convolvend"]}
{"id": "C99", "title": "Downsampling can be done in steps", "statement": "downsample by a and then by b gives exactly what downsample by a*b gives, for images of every size (also those not divisible).  TRUE for images without NaN; FALSE with NaNs: the second step weights a block with few valid pixels like a full one.", "quantifier": "all images, sizes and factors", "why_tests_cant": "all images, sizes and factor pairs", "anchors": ["image_registration/fft_tools/downsample.py:downsample"]}
{"id": "C100", "title": "Zooming and upsampling commute with rolls and are linear", "statement": "Zooming in on a rolled image around the correspondingly moved pixel returns the same values, at coordinates moved along; upsampling a rolled image by an integer u returns the upsampled image rolled by u times as many pixels; zooming and upsampling a linear combination of images returns the same combination of their results.", "quantifier": "all images, sizes, rolls, positions, upsampling factors, output sizes and options", "why_tests_cant": "all images, rolls and factors", "anchors": ["image_registration/fft_tools/zoom.py:zoom_on_pixel", "image_registration/fft_tools/upsample.py:upsample_image"]}
{"id": "C101", "title": "Further keyword arguments of register_fits reach the functions they are meant for", "statement": "Keyword arguments register_fits does not know itself are passed on, so that options of the shift function (upsample_factor, zeromean, ...) and of match_fits (header, use_mad_std) can be given.  TRUE for the options of chi2_shift, in any order, as long as no error image is given.  FALSE otherwise: every keyword goes to all of match_fits, reproject_interp (for the error image) and the shift function, so header= and use_mad_std= always end in an exception, return_chi2array=True always ends in a ValueError when the five results are unpacked, and with errfile= not a single option of chi2_shift can be used.", "quantifier": "all keyword dictionaries, images, headers, options and behaviours of astropy and reproject", "why_tests_cant": "all combinations of keywords", "anchors": ["image_registration/FITS_tools/match_images.py:register_fits", "image_registration/FITS_tools/match_images.py:match_fits", "image_registration/FITS_tools/match_images.py:project_to_header"]}
{"id": "C102", "title": "The documented options of correlate2d and cross_correlation_shifts can be used", "statement": "The options listed in the docstring of correlate2d (and handed on by cross_correlation_shifts) are accepted.  TRUE for boundary, nthreads, use_numpy_fft and allow_huge in any order and combination.  FALSE for pad and fftshift (unknown to convolve_fft) and for the NaN and normalisation options of convolve_fft (given twice): TypeError whatever the images.", "quantifier": "all keyword dictionaries, images and sets of names convolve_fft accepts", "why_tests_cant": "all combinations of keywords", "anchors": ["image_registration/fft_tools/correlate2d.py:correlate2d", "image_registration/cross_correlation_shifts.py:cross_correlation_shifts"]}
{"id": "C103", "title": "Rounding errors of the FFT cannot move the answer unless two shifts fit almost equally well", "statement": "Floating-point transforms are not exact.  If every transform is off by at most eps times the largest value it could have and the product of two transforms by a factor within 1 +- eps, then each pixel of correlate2d changes by at most sum|im1| sum|im2| ((1+eps)^4-1), each pixel of shiftnd by at most sum|data| ((1+eps)^3-1), and chi2n_map correspondingly; the pixel of least chi2, and the shift register_images returns at usfac=1, are within twice that of the best one, and are exactly the ideal ones when the best roll beats every other by more.  The usual root-mean-square accuracy of FFTs implies the hypothesis, and the same exceptions are raised.  FALSE without such a gap: for a constant image (all rolls tie) an arbitrarily small rounding error changes the reported shift.", "quantifier": "all images, sizes, boundary options, masks (maxoff), accuracies eps and all transforms of that accuracy", "why_tests_cant": "rounding depends on the FFT library, its plan, the machine and the number of threads: no finite set of images covers it", "anchors": ["image_registration/fft_tools/correlate2d.py:correlate2d", "image_registration/fft_tools/shift.py:shiftnd", "image_registration/chi2_shifts.py:chi2n_map", "image_registration/register_images.py:register_images"]}
{"id": "C104", "title": "The transform dftregistration returns is the one closest to the first image", "statement": "With return_registered, dftregistration returns the second transform moved by the returned shift and multiplied by a phase of modulus 1 for which its inner product with the first transform is real and not negative: no other phase brings it closer to the first transform.  Without maxoff it is the closest of all whole-pixel shifts and phases (usfac=1) or of all half-pixel shifts and phases (other usfac up to 2).  This holds for complex images too.", "quantifier": "all complex transforms, sizes, usfac > 0, maxoff >= 1 or None, options", "why_tests_cant": "all pairs of complex images and all phases", "anchors": ["image_registration/register_images.py:dftregistration"]}
{"id": "C105", "title": "centers_to_edges returns the edges of the bins around the given centres", "statement": "For n >= 2 equally spaced centres in ascending order, as produced by the zoom functions, the n+1 returned values are half a step below the first centre, half a step above the last one and halfway between neighbours.  Fewer than two centres raise IndexError.  FALSE for descending centres (all edges can coincide) and for unequally spaced ones (a centre may lie outside its own bin).", "quantifier": "all numbers of centres, positions and steps", "why_tests_cant": "all lists of centres", "anchors": ["image_registration/iterative_zoom.py:centers_to_edges"]}
{"id": "C106", "title": "A larger upsampling factor of chi2_shift never fits worse", "statement": "Going to an odd multiple of an integer upsample_factor that is at least the image height, the interpolated chi2 at the returned offset does not increase: the finer grid contains the coarser one.  FALSE for even multiples (a 3 x 1 image moved by half a pixel is matched exactly at factor 3 and not at 6), and FALSE from factors below the image height to factors at or above it: for identical images of odd size without symmetry the call with factor 1 returns exactly (0, 0) with chi2 = 0, and with any factor k >= height it returns an offset with both components non-zero and chi2 > 0.", "quantifier": "all image pairs, sizes, error arguments, factors and options", "why_tests_cant": "all images, sizes and factor pairs", "anchors": ["image_registration/chi2_shifts.py:chi2_shift"]}
{"id": "C107", "title": "chi2_shift and register_images agree on any pair of images with one best roll", "statement": "Also when neither image is a shifted copy of the other: if one whole-pixel roll has a larger correlation, in modulus, than every other and the correlation is positive, then chi2_shift (upsample_factor=1, constant error, odd sizes) and register_images (usfac=1) both return that roll, reduced to the centred range, x first.  FALSE if the correlation is negative: for every image without (anti)symmetry, register_images of an image and its negative returns (0, 0), and chi2_shift a roll that is not the identity.", "quantifier": "all image pairs with NaNs anywhere, odd sizes, options", "why_tests_cant": "all pairs of images", "anchors": ["image_registration/chi2_shifts.py:chi2_shift", "image_registration/register_images.py:register_images"]}
{"id": "C108", "title": "chi2_shift gives the same answer for integer images as for the same images as floats", "statement": "Passing images of an integer dtype (whose squares are computed, and may wrap round, in that dtype) to chi2_shift returns the offsets, errors and exceptions that the same images as float arrays return.  TRUE for every pair of dtypes and every option as long as no error map is given (err None or a number): the wrapped squares only add a constant to chi2, and the returned chi2 array, if asked for, differs by that constant.  TRUE with an error map when zeromean is set or all squares fit in the dtype.  FALSE with an error map otherwise: for 2x2 int16 images with one pixel of 182 the float images give the exact roll and the integer images (0, 0).", "quantifier": "all integer images, pairs of signed and unsigned dtypes, sizes, factors and options", "why_tests_cant": "all images, dtypes and options", "anchors": ["image_registration/chi2_shifts.py:chi2_shift", "image_registration/chi2_shifts.py:chi2n_map"]}
{"id": "C109", "title": "iterative_zoom gives the same answer for integer images as for the same images as floats", "statement": "Passing an image of an integer dtype to iterative_zoom or iterative_zoom_1d returns what the same image as float array returns.  TRUE, for every rank and option, when the differences from the extreme value fit in the dtype: always for unsigned images and minmax=np.min, and for signed images spanning less than half the range of the dtype.  FALSE for unsigned images with minmax=np.max: the differences wrap round, so that the test before the first zoom looks at the faintest pixel; an image holding both 0 and the largest value of its dtype is never zoomed (UnboundLocalError, or offset 0), although the float image is; and images that need no zoom as floats are zoomed as unsigned integers.", "quantifier": "all integer images of every rank, dtypes, zoom shapes, steps and options", "why_tests_cant": "all images and dtypes", "anchors": ["image_registration/iterative_zoom.py:iterative_zoom", "image_registration/iterative_zoom.py:iterative_zoom_1d"]}
{"id": "C110", "title": "cross_correlation_shifts gives the same answer for integer images as for the same images as floats", "statement": "Passing images of an integer dtype returns the offsets and errors of the same images as float arrays.  TRUE for the offsets, under every option; for the errors with zeromean=True (the default), or when the squares of all pixels fit in the dtype and their sums in 63 bits.  FALSE for the errors otherwise: with zeromean=False and return_error=True the squares wrap round, and for every image whose squares all vanish modulo 2^bits (e.g. uint8 pixels that are multiples of 16) the call raises ValueError although the float images give offsets and errors.", "quantifier": "all integer images, pairs of dtypes, sizes, error images and options", "why_tests_cant": "all images and dtypes", "anchors": ["image_registration/cross_correlation_shifts.py:cross_correlation_shifts"]}
{"id": "C111", "title": "Rounding errors in zooming, upsampling and chi2_shift stay bounded and cannot move the answer unless two offsets fit almost equally well", "statement": "If transforms, complex exponentials and each dot product are off by at most eps times the largest value they could have, then every pixel of zoom1d, zoomnd and zoom_on_pixel is off by at most the sum of |pixels| times (1+eps)^(2 ndim+1)-1, at exactly the same positions, and likewise for upsample_image ((1+eps)^5-1).  The roll chi2_shift starts from and the offset it returns have a chi2 within twice the accumulated rounding error of the best roll and of the best node of the refined grid; the offset is exactly the ideal one when both win by more than that.", "quantifier": "all images, sizes, error arguments, explicit factors, options, accuracies eps and operations of that accuracy", "why_tests_cant": "rounding depends on the FFT library, BLAS, the machine and the number of threads: no finite set of images covers it", "anchors": ["image_registration/fft_tools/zoom.py:zoomnd", "image_registration/fft_tools/zoom.py:zoom1d", "image_registration/fft_tools/upsample.py:upsample_image", "image_registration/chi2_shifts.py:chi2_shift"]}
{"id": "C112", "title": "In double precision register_images and chi2_shift return the ideal answer unless two offsets fit almost equally well", "statement": "Let transforms be mixed-radix FFTs computed in double precision, axis by axis, with tabulated twiddle factors, and sums of products be evaluated in any order, with or without fused multiply-add, every operation rounding to nearest, without overflow or underflow.  If an output value passes through m roundings (4 per radix, plus the twiddle errors), transforms are off by at most (1+2^-53)^m - 1 <= 2m 2^-53 times the largest value they could have; hence register_images (usfac=1) and chi2_shift (explicit upsampling factor) return exactly the offset of exact arithmetic whenever the best roll, and the best node of the refined grid, beat all others by more than the resulting explicit bound.  Positions, scalar sums and comparisons are taken as exact.", "quantifier": "all images, sizes and their factorisations into radices, evaluation orders, options", "why_tests_cant": "the order of operations depends on the FFT library, its plan, BLAS, the machine and the number of threads", "anchors": ["image_registration/fft_tools/fast_ffts.py:get_ffts", "image_registration/register_images.py:register_images", "image_registration/chi2_shifts.py:chi2_shift", "image_registration/chi2_shifts.py:chi2n_map"]}
{"id": "C113", "title": "With every pixel operation rounded, register_images and chi2_shift return the ideal answer unless two offsets fit almost equally well", "statement": "As before, but now also the means, differences, squares, quotients, sums over all pixels and moduli are inexact: each operation is off by at most eps times its result, each sum over pixels by at most eps times the sum of the moduli (eps <= 1/2).  Then every value of a chi2n_map, reduced or not, is off by at most (1+eps)^17-1 times an explicit size S (the chi2 of the moduli, where subtracting the mean counts as adding the mean modulus), |chi2| itself is at most S, the peak register_images picks has a correlation within twice (1+eps)^11-1 times the product of the sums of moduli of the best one, and the answers of register_images (usfac=1) and of chi2_shift (explicit factor) are exactly the ideal ones when the best roll, and the best node of the refined grid, win by more than twice the error.  Double precision, with sums over pixels taken in any order, satisfies this with eps = 2m 2^-53 for m the number of roundings.", "quantifier": "all images with NaNs anywhere, sizes and factorisations, error arguments, evaluation orders, accuracies and options", "why_tests_cant": "the order of operations depends on numpy, the FFT library, BLAS, the machine and the number of threads", "anchors": ["image_registration/register_images.py:register_images", "image_registration/chi2_shifts.py:chi2_shift", "image_registration/chi2_shifts.py:chi2n_map"]}
{"id": "C114", "title": "cross_correlation_shifts(gaussfit=True) reports the position the fitter finds", "statement": "With gaussfit=True the fitter is given the correlation map over the number of pixels (and, with return_error, a map of its errors); its exceptions are passed on, and the result is the offset between the centre and the fitted position, with the errors the fitter reports.  TRUE: with a fitter that finds the maximum, every whole-pixel roll of images of even size is recovered, also where the default method raises because the peak lies on the border of the map, and rescaling the images changes nothing if the fitter does not mind rescaled data.  Images of odd size get the additional half pixel of the default method.  The error map is the standard error of the correlation when all pixels of the second image have the same error.  FALSE for the error map otherwise: the errors of the second image are taken at the opposite offset (the second correlation has its arguments exchanged).", "quantifier": "all images, even and odd sizes, error images, options and behaviours of the fitter", "why_tests_cant": "all images and all fitters", "anchors": ["image_registration/cross_correlation_shifts.py:cross_correlation_shifts", "image_registration/fft_tools/correlate2d.py:correlate2d"]}
{"id": "C115", "title": "The default call of chi2_shift (automatic factor, error bars) survives rounding unless a value is almost at a level", "statement": "With upsample_factor='auto' (or an explicit factor), chi2_shift with every operation on pixels rounded, including the differences chi2 - chi2.min() compared with the levels, chooses the factor and window of exact arithmetic and returns exactly its offsets, when the best roll and the best node of the refined grid win by more than twice the rounding error and, for 'auto', no pixel of the chi2 map is within that error of the max_nsig level.  The returned chi2 map then has exactly the coordinates of exact arithmetic and values within the error bound, and the returned error bars are exactly those of exact arithmetic if no node is within the error bound of the 1-sigma level.  The same in double precision, with eps = 2m 2^-53.", "quantifier": "all images with NaNs anywhere, sizes and factorisations, error arguments, factors, evaluation orders, accuracies and options", "why_tests_cant": "the order of operations depends on numpy, the FFT library, BLAS, the machine and the number of threads", "anchors": ["image_registration/chi2_shifts.py:chi2_shift", "image_registration/chi2_shifts.py:chi2map_to_errors", "image_registration/chi2_shifts.py:chi2n_map"]}
{"id": "C116", "title": "Registering noisy images with a sub-pixel offset: the corrected image and the offset are right up to noise and half a step of the grid", "statement": "If the true shift lies in the window that chi2_shift refines (up to whole periods, and half a step beyond its ends), the 2-norm of the difference between the second image and the first one shifted by the returned offset is at most that for the true shift (for odd sizes: the norm of the noise) plus pi/u times the norm of the first image, u being the final upsampling factor.  The same bound holds for the README recipe: shift2d(im2, -xoff, -yoff) differs from im1 by at most that.  The returned offset itself is off by at most what 2|sin(pi*dy/ny)| |F(1,0)| <= sqrt(ny*nx) (2*noise + pi/u*norm), and the same along x, allow, F(1,0) and F(0,1) being the lowest frequencies of the first image.", "quantifier": "all images with NaNs anywhere, sizes, true shifts (not only nodes of the grid), noise (any second image), constant errors, explicit and automatic factors, options", "why_tests_cant": "all images, all real shifts and all noise", "anchors": ["image_registration/chi2_shifts.py:chi2_shift", "image_registration/fft_tools/shift.py:shift2d", "README.md"]}
{"id": "C117", "title": "Registering noisy images with register_images: offset and registered image are right up to noise and half a step of the grid", "statement": "With usfac > 2, if the true shift is within 3/4 - 3/(2 usfac) pixels (up to whole periods) of the best half-pixel offset, the 2-norm of the difference between the second image, times one number of modulus 1, and the first image shifted by the returned offset is at most that for the true shift plus pi/usfac times the norm of the first image.  The returned offset is off by at most what |sin(2 pi dy/ny)| |F(1,0)| <= sqrt(ny*nx) (2*noise + pi/usfac*norm) allows, and by the sharper bound with sin(pi dy/ny) if the image has flux; the same along x.  The registered image, after exchanging its quadrants (which register_images leaves exchanged), differs from the modulus of the first image by at most the same bound.", "quantifier": "all images with NaNs anywhere, sizes, true shifts, noise (any second image), real factors > 2, maxoff, zeromean and other options", "why_tests_cant": "all images, all real shifts and all noise", "anchors": ["image_registration/register_images.py:register_images", "image_registration/register_images.py:dftregistration"]}
{"id": "C118", "title": "The package's accuracy tests, for all images, offsets and noise", "statement": "make_offset_extended returns the image Fourier-shifted by (xsh, ysh) plus the noise (FALSE with noise_taper=True: it always raises).  chi2_shift on an image and its synthetic offset copy, followed by shiftnd with the negated offset (test_issue19), leaves a sum of absolute residuals of at most sqrt(ny*nx) (norm of the noise + pi/u * norm of the image), plus the imaginary part dropped by make_offset_extended for even sizes, if the true offset lies in the refined window.  The helper chi2(im1, im2, dx, dy) is, for whole-pixel offsets, exactly the value of chi2n_map for that offset if im2 has no negative pixels (FALSE otherwise: it compares with |im2|, so that an image need not match itself); with upsample=u > 1 it compares only the corner of ny/u x nx/u pixels of the interpolated images.", "quantifier": "all images, sizes, offsets, noise arrays, error maps and factors", "why_tests_cant": "the tests draw a few random images", "anchors": ["image_registration/tests/registration_testing.py:chi2", "image_registration/tests/registration_testing.py:make_offset_extended", "image_registration/tests/registration_testing.py:edge_weight", "image_registration/tests/registration_testing.py:test_issue19", "image_registration/chi2_shifts.py:chi2_shift"]}
{"id": "C119", "title": "The coarse search finds the right neighbourhood unless the image nearly repeats itself", "statement": "The sub-pixel accuracy of chi2_shift and register_images does not need the true shift to be in the refined window as an assumption: it is enough that every whole-pixel roll of the first image (register_images: every half-pixel offset, times any number of modulus 1) whose window misses the true shift is further from the image at the true shift than some roll is, by more than twice the norm of the noise.  Then the mismatch at the returned offset is at most the noise plus pi/u times the norm of the image, and the returned offset is off by at most what the amplitudes of the image allow.  With upsample_factor='auto' the window always reaches at least one pixel to each side of the best roll (half a pixel lower on axes of even length).", "quantifier": "all images with NaNs anywhere, sizes, true shifts, noise (any second image), constant errors, explicit and automatic factors, options", "why_tests_cant": "all images, all real shifts and all noise", "anchors": ["image_registration/chi2_shifts.py:chi2_shift", "image_registration/register_images.py:register_images", "image_registration/register_images.py:dftregistration"]}
{"id": "C120", "title": "cross_correlation_shifts with every operation rounded is off by an explicit bound", "statement": "If each operation on pixels, derivatives and offsets is off by at most eps times its result and each sum by at most eps times the sum of moduli, cross_correlation_shifts (default peak method) starts from the same correlation peak as exact arithmetic when that peak wins by twice the rounding error and is not lost in it, and both offsets are then off from those of exact arithmetic by at most an explicit bound: the error of the numerators and of the determinant of the second derivatives, over the determinant.  For an image and its roll away from the border the exact offsets are the roll (plus 1/2 on odd axes) and the bound is (1+eps)^2 en/(d-ed) + eps |offset|.  Double precision, sums in any order, satisfies this with eps = 2m 2^-53.", "quantifier": "all images with NaNs anywhere, sizes and factorisations, evaluation orders, accuracies, options (boundary wrap, gaussfit=False, return_error=False)", "why_tests_cant": "the order of operations depends on numpy, the FFT library, the machine and the number of threads", "anchors": ["image_registration/cross_correlation_shifts.py:cross_correlation_shifts", "image_registration/cross_correlation_shifts.py:second_derivative", "image_registration/fft_tools/correlate2d.py:correlate2d"]}
{"id": "C121", "title": "The offsets of chi2_shift and register_images converge to the true shift", "statement": "For an image that shows one wave per axis (its lowest frequencies have amplitudes Fy, Fx > 0), if the coarse search cannot be misled (see the previous accuracy property), the offset of chi2_shift with a given factor u is off, up to whole periods, by at most n/(4F) sqrt(ny*nx) (2*noise + pi/u*norm) along each axis of n pixels; for register_images with usfac=u the factor 1/F becomes 1/F + 1/|flux|, or, for images without flux, the sum of the reciprocals of any two neighbouring amplitudes.  Consequently chi2_shift converges: for every image whose rolls more than a pixel away from the true shift resemble the shifted image less than some roll does, and every tolerance, there are a noise level and a factor such that every integer factor above it and every second image within the noise level of the shifted image give offsets within the tolerance, for all other options.  The same holds for register_images, for all real usfac above the factor, if half-pixel offsets more than half a pixel away resemble the shifted image less than one of them, also up to a number of modulus 1.", "quantifier": "all images with NaNs anywhere, sizes >= 3, true shifts, tolerances, noise (any second image), constant errors, factors and options", "why_tests_cant": "a statement about limits, for all images and all noise", "anchors": ["image_registration/chi2_shifts.py:chi2_shift", "image_registration/register_images.py:register_images"]}
{"id": "C122", "title": "chi2_shift with every operation rounded, positions included, is off by a few units in the last place of the image size", "statement": "Now also the centre, the automatic upsampling factor, the half-width of the window, numpy.linspace, the returned offsets and coordinates and the error bars are computed with rounding: each operation is off by at most mu times its result (mu <= 1/4, 1 is exact), everything else as in the previous properties on rounding.  If the best roll and the best node of the refined grid win by more than the rounding error (now with the change of the interpolated chi2 over the error of the positions), no pixel is at the level of the automatic factor, and an explicit factor is not almost the image height, then chi2_shift returns a list of the same form as in exact arithmetic, with offsets and coordinates off by at most (7n+4+2s/u) ((1+mu)^12-1) along an axis of n pixels and s nodes of spacing 1/u, and chi2 values within the bound; error bars are off by at most 3 s/u ((1+mu)^10-1) if no node is at the 1-sigma level.  In double precision these are (7n+4+2s/u) 24 2^-53 and 60 s/u 2^-53 pixels.  With exact operations the function is exactly chi2_shift.", "quantifier": "all images with NaNs anywhere, sizes and factorisations, error arguments, explicit and automatic factors, evaluation orders, accuracies and options (boundary wrap, verbose=False)", "why_tests_cant": "the order of operations depends on numpy, the FFT library, BLAS, the machine and the number of threads", "anchors": ["image_registration/chi2_shifts.py:chi2_shift", "image_registration/chi2_shifts.py:chi2map_to_errors", "image_registration/fft_tools/zoom.py:zoom_on_pixel", "image_registration/fft_tools/zoom.py:zoomnd"]}
{"id": "C123", "title": "register_images with every operation rounded, sub-pixel search included, finds the same node of the grid", "statement": "register_images with any upsampling factor, with the half-pixel search, the matrix-multiply Fourier transform around its peak (phases, exponentials, products), the normalisation, the moduli and the offsets computed with rounding: transforms, dot products and exponentials off by at most eps relative to the moduli, scalar operations by at most mu (mu <= 1/4), halves of integers exact.  If rounding does not move the grid (always so in double precision with an integer factor), the offsets are, up to (n/2+4)((1+mu)^3-1) pixels on an axis of n pixels, those of a node of the fine grid whose correlation is within twice an explicit error of the best one, around a half-pixel offset whose correlation is within twice an explicit error of the best one.  If the best half-pixel offset and the best node win by more than that, the node is the one of exact arithmetic; with factors up to 2 the offsets are then exactly those of exact arithmetic.  In double precision the offsets are off by at most (n+8) 3 2^-53 pixels.  With exact operations the function is exactly register_images, and with usfac=1 it is the function of the earlier property on rounding.", "quantifier": "all images with NaNs anywhere, sizes and factorisations, real factors, evaluation orders, accuracies, maxoff, zeromean and return_error (return_registered=False)", "why_tests_cant": "the order of operations depends on numpy, the FFT library, BLAS, the machine and the number of threads", "anchors": ["image_registration/register_images.py:register_images", "image_registration/register_images.py:dftregistration", "image_registration/fft_tools/upsample.py:dftups"]}
{"id": "C124", "title": "convolvend with every operation rounded is the documented convolution up to an explicit bound", "statement": "The kernel sum and normalisation, the transforms, their product, the smoothed weights and the division by them are computed with rounding: transforms and sums off by at most eps relative to the moduli, scalar operations by at most eps.  TRUE for every combination of boundary, padding, cropping, normalisation, NaN interpolation and edge handling: without reweighting every pixel is off by at most (sum of the moduli of the padded image) (sum of the moduli of the kernel) ((1+eps)^4 q - 1), q being 1, or (1+eps)^2/(1 - eps*condition) with normalize_kernel=True; with reweighting a pixel is NaN if its weight is below min_wt by more than the error of the weights, and value/weight up to an explicit bound if the weight is at least min_wt, and positive, by more than that error; return_fft is off by at most the same with (1+eps)^3.  The same in double precision with eps = 2m 2^-53.  FALSE at a pixel that no valid pixel reaches, with min_wt=0: the documented answer is 0, but any positive error of the transform can leave the quotient of two rounding errors, of the size of the image.  With exact operations the function is exactly convolvend.", "quantifier": "all real images and kernels with NaNs anywhere, any rank, sizes, options, normalisation functions with real values, evaluation orders and accuracies", "why_tests_cant": "the order of operations depends on numpy, the FFT library, the machine and the number of threads", "anchors": ["image_registration/fft_tools/convolve_nd.py:convolvend"]}
{"id": "C125", "title": "shiftnd and shift2d with every operation rounded are off by an explicit bound", "statement": "The frequencies, their products with the offsets, the sum over the axes, the phase angle, its exponential, the transforms, their product and the modulus are computed with rounding: transforms, products and exponentials off by at most eps relative to the moduli, scalar operations by at most mu times their result, and the offset itself may be off by d.  shiftnd (any rank) and shift2d then fail exactly when exact arithmetic does, and every pixel is off by at most (sum of the moduli of the image) times (1+eps)^3 (1+k) - 1, k being eps plus (pi * sum of |offsets| + |phase|) ((1+mu)^(rank+7) - 1) plus pi times the sum of the d (with return_abs, up to a factor 1+mu).  For a whole number of pixels the result is the rolled image times cos(phase) up to that.  The same in double precision, with eps = 2m 2^-53.  With exact operations the functions are exactly shiftnd and shift2d.", "quantifier": "all images with NaNs anywhere, any rank and size, real offsets and phases, options, evaluation orders and accuracies", "why_tests_cant": "the order of operations depends on numpy, the FFT library, the machine and the number of threads", "anchors": ["image_registration/fft_tools/shift.py:shiftnd", "image_registration/fft_tools/shift.py:shift2d"]}
{"id": "C126", "title": "The README recipe with every operation rounded", "statement": "xoff, yoff, ... = chi2_shift(im1, im2, ...); corrected = shift(im2, -xoff, -yoff), with every operation of both calls rounded: if the best roll and the best node of the refined grid win by more than the rounding error, chi2_shift returns, and if the true shift lies in the refined window the 2-norm of the difference of the corrected image and im1 is at most that for the true shift plus pi/u times the norm of im1 (as in exact arithmetic) plus sqrt(ny*nx) times an explicit rounding error: that of the shift with an offset off by the error of the positions.  The same in double precision, with explicit constants.", "quantifier": "all images with NaNs anywhere, sizes and factorisations, true shifts, noise, constant errors, explicit and automatic factors, evaluation orders, accuracies and options", "why_tests_cant": "the order of operations depends on numpy, the FFT library, BLAS, the machine and the number of threads", "anchors": ["image_registration/chi2_shifts.py:chi2_shift", "image_registration/fft_tools/shift.py:shiftnd", "README.md"]}
{"id": "C127", "title": "The raw Fourier upsampling of the tests against dftups", "statement": "upsample_ft_raw(F, G, z) pads the centred cross spectrum F conj(G) to z times its size and transforms it back.  TRUE for even sizes and every whole factor z >= 2: it returns, and pixel (r, c) is dftups(F conj(G), z*ny, z*nx, z) at (-r, -c) (cyclically) divided by the number of large pixels and times a unit complex number that depends on r + c only (and is 1 at z = 2), so the moduli agree.  FALSE: with an odd axis of 3 or more pixels (99 and 101, two of the three sizes test_upsample is run on), or z = 1, it raises ValueError; under Python 2 with numpy >= 1.12 it raises TypeError; and test_upsample's comparison with dftus[::-1, ::-1] compares each pixel with its diagonal neighbour: the reversed array is one large pixel off in both axes.", "quantifier": "all transforms, sizes and whole factors", "why_tests_cant": "an identity of two transforms for every array, size and factor; the test only plots it", "anchors": ["image_registration/tests/registration_testing.py:upsample_ft_raw", "image_registration/fft_tools/upsample.py:dftups"]}
{"id": "C128", "title": "The Gaussian image pairs of the tests", "statement": "make_offset_images(xsh, ysh, ...) returns an image that is exactly a Gaussian of the given amplitude and width at (ycen, xcen), an image that is noiseamp times the random array plus the same Gaussian moved by (ysh, xsh), and the tolerance 3/sqrt(2 pi width^2 amp/noiseamp).  TRUE for whole offsets with both centres at least D pixels from the border: the second image is the first rolled by the offset up to the norm of the noise plus n times the Gaussian's value at distance D; and if the refined window of chi2_shift contains the true shift, then its answer is off by an angle whose sine is at most an explicit multiple of noise, tail and one part in upsample_factor (the claim of test_shifts, quantified).  FALSE: noiseamp=0 raises ZeroDivisionError instead of giving noiseless images, and a float centre (50. for 50) raises TypeError.", "quantifier": "all sizes, offsets, widths, amplitudes, noise arrays and levels, centres", "why_tests_cant": "the tests draw random noise; no draw settles the others", "anchors": ["image_registration/tests/registration_testing.py:make_offset_images", "image_registration/tests/registration_testing.py:test_shifts", "image_registration/chi2_shifts.py:chi2_shift"]}
{"id": "C129", "title": "The synthetic extended image of the tests", "statement": "make_extended(n, ny, powerlaw) is the modulus of the inverse transform of random complex amplitudes scaled by distance^(-powerlaw/2), rolled to the centre.  TRUE: the distances are taken from the middle (n/2 - 1 on even axes, the half-integer n/2 on odd ones), only the pixel of distance zero is 0 (there is one only when both sizes are even), rolling the amplitudes does not change the image, pixels are nonnegative, and the sum of their squares is the sum of the squared amplitudes divided by the number of pixels.  FALSE: the power spectrum of the returned image is not the PSD ~ r^(-powerlaw) of the docstring: if a single amplitude is nonzero the image is constant, and its own transform vanishes at every frequency but zero.", "quantifier": "all sizes, exponents and random draws", "why_tests_cant": "identities for every random draw", "anchors": ["image_registration/tests/registration_testing.py:make_extended"]}
{"id": "C130", "title": "The example of README.md, end to end", "statement": "image = make_extended(n); offset_image = make_offset_extended(image, xsh, ysh, noise=s); xoff, yoff, exoff, eyoff = chi2_shift(image, offset_image); corrected = shiftnd(offset_image, (-yoff, -xoff)).  For every size, exponent and random draw all four calls return, chi2_shift returns exactly two positions and two nonnegative errors, and if the window refined by the automatic factor contains the true offset (which it does whenever the coarse minimum is the pixel nearest to it, or for 1x1 and 2x2 images) the 2-norm of corrected - image is at most that of the noise, plus that of the imaginary part lost by make_offset_extended (zero for odd sizes), plus pi/u times sqrt(sum of the squared amplitudes)/n, u being the factor chosen.", "quantifier": "all sizes, exponents, offsets, noise levels and random draws", "why_tests_cant": "the example draws random amplitudes and noise; no run of it settles the others", "anchors": ["README.md", "image_registration/tests/registration_testing.py:make_extended", "image_registration/tests/registration_testing.py:make_offset_extended", "image_registration/chi2_shifts.py:chi2_shift", "image_registration/fft_tools/shift.py:shiftnd"]}
{"id": "C131", "title": "The experiment drivers of the tests", "statement": "do_n_fits and do_n_extended_fits: TRUE: row k is the answer of the registration method on the k-th pair of images (the Gaussian pair, or the extended image and its k-th noisy offset copy), in order, and the first exception stops them.  FALSE: gaussfit and maxoff of do_n_extended_fits reach the method (they are ignored), zeropad>0 raises TypeError (Python 3), unsharp_mask=True raises, doplot=True raises UnboundLocalError; run_tests raises at its print for every method; accuracy_plot raises NameError; the amplitude given to plot_tests is passed as gaussfit and never reaches the images; for an image rolled by whole pixels the rows of register_accuracy_test are (y, x), those of register_noise_test (x, y); accuracy_plot_extended plots sqrt(2) |xsh + ysh| as the error of a perfect method; and the last column of do_n_fits_register, meant as the fit residual, compares im1 with a registered image that has lost its mean and signs and is rolled by half its size: up to noise and one part in the upsampling factor it is the distance of im1 from the absolute value of im1 less its mean, rolled by half.", "quantifier": "all offsets, sizes, numbers of fits, noise arrays, images, registration methods and options", "why_tests_cant": "the drivers draw random noise and only plot; no run settles the others", "anchors": ["image_registration/tests/registration_testing.py:do_n_fits", "image_registration/tests/registration_testing.py:do_n_extended_fits", "image_registration/tests/registration_testing.py:do_n_fits_register", "image_registration/tests/registration_testing.py:run_tests", "image_registration/tests/registration_testing.py:plot_tests", "image_registration/tests/registration_testing.py:accuracy_plot", "image_registration/tests/registration_testing.py:accuracy_plot_extended", "image_registration/tests/registration_testing.py:register_accuracy_test", "image_registration/tests/registration_testing.py:register_noise_test"]}
{"id": "C132", "title": "Shifting, zooming and interpolating images of a band-limited scene", "statement": "If an image samples a scene g (a function on the line, the plane or space that is a finite combination of waves of fewer than half a cycle per pixel along every axis), shiftnd returns exactly the samples of the displaced scene, for every real offset; if it only nearly does (noise, or a scene that is only nearly band-limited), the distance in the 2-norm between the shifted image and the displaced scene is at most that between the image and the scene, and so is the error at every pixel.  zoom1d, zoom_on_pixel, fourier_interp1d, fourier_interp2d and upsample_image return the scene's value at their coordinates up to the same.  So for a function within eps of a band-limited one the shifted samples are within (1+sqrt(N)) eps of the samples of the shifted function.  Every real image whose sizes are all odd samples exactly one band-limited scene.  FALSE at exactly half a cycle per pixel: the samples of sin(pi x) vanish and so does their shift by half a pixel, whose true values are 1 and -1; and with an even size there are images that sample no band-limited scene.", "quantifier": "all shapes, real images, scenes, real offsets, coordinates, factors, transforms", "why_tests_cant": "the tests of the accuracy of shift and zoom try one Gaussian", "anchors": ["image_registration/fft_tools/shift.py:shiftnd", "image_registration/fft_tools/scale.py:fourier_interp1d", "image_registration/fft_tools/scale.py:fourier_interp2d", "image_registration/fft_tools/zoom.py:zoom1d", "image_registration/fft_tools/zoom.py:zoom_on_pixel", "image_registration/fft_tools/upsample.py:upsample_image"]}
{"id": "C133", "title": "Registering two images of one scene", "statement": "Two images, each within some 2-norm distance of the samples of one band-limited scene g, the second displaced by any real (ty, tx): whatever the noise, the true displacement explains the second image up to the sum D of the two distances.  So if the window refined by chi2_shift contains it, the returned offset is off by an angle whose sine times the first wave of the image is at most sqrt(ny*nx)/2 times (2D + pi/u * norm of the image); the image shifted back by the returned offset is within D + pi/u * norm of the first image, and within that plus the first image's distance of the scene; register_images satisfies the analogous bounds.  With noiseless samples of the scene D = 0.", "quantifier": "all scenes, displacements, noise arrays, sizes (even and odd), factors and options", "why_tests_cant": "the true displacement and the noise range over continua", "anchors": ["image_registration/chi2_shifts.py:chi2_shift", "image_registration/register_images.py:register_images", "image_registration/fft_tools/shift.py:shift2d"]}
{"id": "C134", "title": "Two crossed waves, from images to offsets", "statement": "The first image samples a + b cos(2 pi y/ny - phi) + c cos(2 pi x/nx - psi) (b and c nonzero, at least 3 pixels each way), the second the same scene displaced by any real (ty, tx).  Then, with nothing else assumed about the search, chi2_shift with an explicit factor u whose final window spans at least two pixels (any int factor u of at least the image height, or u at most half of ny and nx) returns offsets within n pi R / (2u |b|) along y and n pi R / (2u |c|) along x of the true displacement, up to whole periods, where n is the size of the axis and R the root mean square of the scene (of its ripples if zeromean), for every error, transform and reporting option.  register_images with a factor of at least 3, if b^2+c^2 <= 4a^2, returns offsets within n pi R (2/|b| + 1/|a|)/(4 usfac).  With a second image any 2-norm distance from the displaced scene, for every tolerance there are a noise level and a factor such that below that level and from that factor on both functions return the true displacement up to the tolerance.", "quantifier": "all sizes from 3, amplitudes, phases, real displacements, noise arrays, factors, options", "why_tests_cant": "the displacement, amplitudes and phases range over continua", "anchors": ["image_registration/chi2_shifts.py:chi2_shift", "image_registration/register_images.py:register_images"]}
{"id": "C135", "title": "Several shifts in a row, rounded", "statement": "With every operation of shiftnd rounded, shifting by a and then by b gives at every pixel what one exact shift by a+b gives, up to sqrt(N) times the error bound of the first shift plus that of the second, N being the number of pixels, if all sizes are odd or a or b is whole; shifting by a and back by -a gives the image back up to the same.  A rounded shift keeps the total up to N times its error bound, and the 2-norm of the image grows by at most sqrt(N) times it.  (FALSE for even sizes and fractional offsets already in exact arithmetic.)", "quantifier": "all real images, any rank and size, real offsets, evaluation orders and accuracies", "why_tests_cant": "the order of operations depends on numpy, the FFT library, the machine and the number of threads", "anchors": ["image_registration/fft_tools/shift.py:shiftnd"]}
{"id": "C136", "title": "register_images with every operation rounded on noisy images with a sub-pixel offset", "statement": "No exact answer has to stand out: with usfac = u > 2 and every operation rounded, if half-pixel offsets away from the true shift reproduce the shifted image worse (by more than twice the noise and twice the square root of the error of the correlation peak) than one of them does, register_images returns offsets (dx, dy) with |sin(2 pi (dy-ty)/ny)| |F(1,0)| <= sqrt(ny*nx) (2*noise + pi/u*norm + 2*sqrt(error of the correlation on the fine grid)) + 2 pi/ny * (error of the positions) |F(1,0)|, the same along x, and a sharper bound for images with flux.  For any maxoff the same holds of the true shifts within 3/4 - 3/(2u) pixels of the half-pixel offset found.  In double precision all the errors are explicit; the conclusion is instantiated for a 3x3 image in doubles.", "quantifier": "all images with NaNs anywhere, sizes and factorisations, true shifts, noise (any second image), real factors > 2, zeromean, return_error, evaluation orders and accuracies", "why_tests_cant": "all images, noise and rounding", "anchors": ["image_registration/register_images.py:register_images", "image_registration/register_images.py:dftregistration", "image_registration/fft_tools/upsample.py:dftups"]}
{"id": "C137", "title": "Error bars of an exact shift cover it", "statement": "If the second image is the first rolled by a whole number of pixels (less than half a period each way), both sizes are odd and no other roll reproduces the image, then with any upsample_factor ('auto', int or float), any constant error and any options chi2_shift(..., return_error=True) returns x, y, ex, ey with |x - dx| <= ex and |y - dy| <= ey: the fine map is symmetric about the true offset, so the pixel mirrored in it is within the one-sigma region too.  FALSE: that the offset is exact with 'auto' and the default max_auto_size (or any even one): no node of the fine grid lies on a whole pixel, so neither offset is ever exact and neither error bar is ever zero.", "quantifier": "all images (NaNs allowed), odd sizes, offsets, constant errors, factors, windows and options", "why_tests_cant": "all images and factors; a test tries one", "anchors": ["image_registration/chi2_shifts.py:chi2_shift", "image_registration/chi2_shifts.py:chi2map_to_errors"]}
{"id": "C138", "title": "The verdicts of the project's own tests", "statement": "test_extended_shifts, test_shifts (without gaussfit), test_issue19 and test_issue_60, as functions of size, offset, noise and random draws, always reach a verdict (no other exception), and it is: both offsets strictly within nsigma error bars of the true ones; both within 3/sqrt(2 pi 9 1000); the L1 distance of the image shifted back below 2*noise per pixel and below that of the unshifted one; and, for issue 60, with allow_huge the tolerance of test_shifts, without it passing exactly when 16 bytes per pixel exceed the size limit (so it would fail, not pass, on a small image).  When the draws add no noise and the offset is a whole number of pixels test_extended_shifts passes for every odd size, nsigma > 1 and image that no roll reproduces; for odd sizes every nonnegative image is one make_extended can return.  The first assertion of test_issue19 holds whenever the search window holds the true offset and noise, lost imaginary part and resolution stay below the tolerance.  FALSE: with noise_taper=True test_extended_shifts and its low-noise variant raise for every draw.", "quantifier": "all sizes, offsets, noise levels and random draws", "why_tests_cant": "each run of a test draws one noise array", "anchors": ["image_registration/tests/registration_testing.py:fit_extended_shifts", "image_registration/tests/registration_testing.py:test_extended_shifts", "image_registration/tests/registration_testing.py:test_extended_shifts_lownoise", "image_registration/tests/registration_testing.py:test_shifts", "image_registration/tests/registration_testing.py:test_issue19", "image_registration/tests/registration_testing.py:test_issue_60"]}
{"id": "C139", "title": "The gaussfit half of test_shifts and the low-noise test", "statement": "test_extended_shifts_lownoise always reaches a verdict (nonzero noise, no taper): both offsets strictly within nsigma error bars of the true ones and both error bars within 0.03 of 0.08 times the noise.  FALSE: that test_shifts with gaussfit=True tests the Gaussian fit: it calls cross_correlation_shifts without gaussfit, so its outcome is the same for every fitter and without any.  FALSE: that this half passes whenever the second image is exactly the first moved by the offset under test: for sizes above 50 and offsets that keep the correlation peak off the edge it then passes for every even size (100) and fails for every odd one (99, 101), because of the half-pixel bias; for every such size and offset there are draws that make the second image exactly the first one moved.  FALSE: that the low-noise test can pass for every nonzero noise level chi2_shift accepts: at -0.375 and below it fails for every draw.", "quantifier": "all sizes, offsets, noise levels, random draws and fitters", "why_tests_cant": "each run of a test draws one noise array; a parameter that selects nothing leaves no trace in a passing run", "anchors": ["image_registration/tests/registration_testing.py:test_shifts", "image_registration/tests/registration_testing.py:test_extended_shifts_lownoise", "image_registration/cross_correlation_shifts.py:cross_correlation_shifts"]}
