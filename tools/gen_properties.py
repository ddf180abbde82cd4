#!/usr/bin/env python3
"""Writes /verif/properties.jsonl (one JSON object per line) from the table below."""
import json, os
P = []
def p(title, statement, quantifier, why, *anchors):
    P.append(dict(id="C%02d" % (len(P)+1), title=title, statement=statement,
                  quantifier=quantifier, why_tests_cant=why, anchors=list(anchors)))
IR = "image_registration/"
SH, SC, ZO, UP, DS, CN, CO, FF, SM = [IR+"fft_tools/"+x for x in
  ("shift.py","scale.py","zoom.py","upsample.py","downsample.py","convolve_nd.py","correlate2d.py","fast_ffts.py","smooth_tools.py")]
CH, CC, RI, IZ = [IR+x for x in ("chi2_shifts.py","cross_correlation_shifts.py","register_images.py","iterative_zoom.py")]
FO, MI, LH = [IR+"FITS_tools/"+x for x in ("fits_overlap.py","match_images.py","load_header.py")]

# ---- shift
p("Integer shifts are exact cyclic rolls",
  "shiftnd(data, offset) with whole-pixel offsets returns, at every pixel x, the (NaN->0) input pixel at (x - offset) modulo the array shape, i.e. np.roll; with a phase argument the real output is that roll times cos(phase).",
  "every array of every dimensionality and shape, every tuple of integer offsets (any size or sign), every phase",
  "infinitely many shapes/offsets and dimensionalities; tests compare a few Gaussians to a 0.05 tolerance", SH+":shiftnd")
p("Shifts compose and invert (complex output)",
  "With return_real=False, shifting by a (phase p) and then by b (phase q) equals one shift by a+b (phase p+q); hence shifting by -a undoes shifting by a exactly.",
  "every array, every dimensionality, every pair of real (sub-pixel) offsets and phases",
  "a law over all pairs of real offsets on all arrays", SH+":shiftnd")
p("Shifts compose and invert (real output)",
  "With the default return_real=True, shift(shift(x,a),b) = shift(x,a+b), so a corrected image can be un-shifted.  True when every axis has odd length, or when one of the two shifts is whole-pixel; false on even axes for fractional shifts (Nyquist term is lost).",
  "every real array, every real offsets", "holds/fails depending on parity of the size and fractional part; tests use smooth Gaussians where the Nyquist term is negligible", SH+":shiftnd")
p("Shifting conserves flux and energy",
  "shiftnd leaves the sum of the image unchanged for every offset (phase 0); with return_real=False the sum of |pixel|^2 is unchanged for every offset and phase; with real output it never increases, and is unchanged when all axes are odd; a zero offset returns the image itself.",
  "every array, dimensionality, real offset", "quantifies over all real offsets and arrays", SH+":shiftnd")
p("Shifts are periodic in the offset",
  "Adding any integer multiple of the axis length to an offset does not change the result of shiftnd.",
  "every array, offset, multiple and axis", "unbounded multiples of every size", SH+":shiftnd")
p("Shifting is linear",
  "shiftnd(a*x + b*y, d) = a*shiftnd(x,d) + b*shiftnd(y,d).",
  "every pair of NaN-free arrays of equal shape, all scalars, all offsets and phases", "universally quantified algebraic law", SH+":shiftnd")
p("shift2d is shiftnd with swapped arguments",
  "shift2d(data, deltax, deltay, ...) returns exactly shiftnd(data, (deltay, deltax), ...) for every flag combination and raises ValueError on inputs that are not 2-D.",
  "every 2-D array, offsets, phase, flags", "equivalence of two implementations on all inputs", SH+":shift2d", SH+":shiftnd")
p("NaNs count as zero; shape and flags behave",
  "shiftnd gives the same output as on the input with each NaN replaced by 0; output shape = input shape; return_real wins over return_abs, which wins over complex; offsets beyond the number of axes are ignored and missing ones count as 0.",
  "every NaN pattern, array, offset list of any length, flags", "all NaN masks/flag combinations/offset lengths", SH+":shiftnd")
p("FFT backend does not change results",
  "get_ffts returns a forward transform that is the DFT and an inverse normalised by 1/size such that inverse(forward(x)) = x, whichever of the has_fftw/use_numpy_fft/nthreads combinations selects the backend.",
  "every array, nthreads, flag and installation combination", "needs installations with and without fftw and all inputs", FF+":get_ffts")
# ---- scale
p("Fourier interpolation reproduces the samples",
  "fourier_interp1d(data, out_x) at an integer coordinate t returns data[t mod n], and is periodic with period n in each coordinate.",
  "every 1-D array and every list of output coordinates", "infinite inputs", SC+":fourier_interp1d")
p("Band-limited signals are interpolated exactly",
  "If data are samples of a trigonometric polynomial with frequencies strictly below Nyquist, fourier_interp1d returns that polynomial's value at every real coordinate.",
  "every n, every such polynomial, every real coordinate", "all real coordinates of all polynomials", SC+":fourier_interp1d")
p("data_x re-gridding and shape validation",
  "With strictly increasing data_x, asking for out_x equal to the data_x nodes returns the data; coordinates left/right of the nodes clamp to the first/last sample; non-1-D out_x or mis-shaped data_x raise ValueError.",
  "every data, increasing data_x and out_x", "all grids", SC+":fourier_interp1d")
p("2-D interpolation is the separable interpolant",
  "fourier_interp2d(data, (ys,xs))[i,j] is the 2-D trigonometric interpolant of data at (ys[i],xs[j]); equals the pixel at integer coordinates; index-array and pair-of-lists forms agree; wrong number of index arrays raises ValueError.",
  "every 2-D array and coordinates", "all arrays and both calling conventions", SC+":fourier_interp2d")
p("Shift and interpolation agree",
  "shiftnd(data,d)[x] equals Fourier interpolation of data at coordinate x-d (1-D and 2-D).",
  "every real array, real offset, pixel", "relates two modules for all inputs", SH+":shiftnd", SC+":fourier_interp1d", SC+":fourier_interp2d")
# ---- zoom
p("Zoom output coordinates",
  "zoom1d/zoom_on_pixel/zoomnd with return_xouts return coordinates forming a uniform grid with spacing 1/usfac centred on the requested pixel (array middle + offset) on every axis, increasing when usfac>0.",
  "every input shape, output shape >= 1, usfac <> 0, target", "all sizes/real factors", ZO+":zoom1d", ZO+":zoom_on_pixel", ZO+":zoomnd")
p("Zoom by 1 is the identity",
  "zoom1d and zoomnd with default arguments (usfac=1, same size, no offset) return the input image and its pixel indices as coordinates.",
  "every 1-D and 2-D real array", "all arrays; a test fixed only the coordinates", ZO+":zoom1d", ZO+":zoomnd")
p("Zoomed values match their coordinates",
  "Every value returned by zoom1d/zoom_on_pixel is the trigonometric interpolant of the input at the coordinate returned beside it; if that coordinate is an in-range integer pixel it is that pixel's value.",
  "every array, factor, target, output size", "all real coordinates", ZO+":zoom_on_pixel")
p("zoom1d, zoomnd agree; argument validation",
  "zoom1d(inp, usfac, outsize, offset) = zoomnd(inp, offsets=(offset,), usfac, outshape=(outsize,)); wrong number of offsets raises ValueError; 3-D or more raises NotImplementedError; an output shape with fewer entries than the data have axes (first entry not 1) raises ValueError.  Fails for a one-pixel 1-D zoom: zoomnd raises ValueError where zoom1d succeeds.",
  "every 1-D array, factor, offset, output size", "equivalence on all inputs incl. degenerate size", ZO+":zoom1d", ZO+":zoomnd")
# ---- upsample
p("dftups equals the zero-padded DFT window",
  "dftups(inp, nor, noc, usfac, roff, coff)[r,c] equals element ((r-roff) mod usfac*nr, (c-coff) mod usfac*nc) of the FFT of inp embedded (DC-centred) in an array usfac times larger.",
  "every complex array, integer usfac>=1, integer offsets, window sizes", "documented equivalence over all sizes and parities", UP+":dftups")
p("Upsampling preserves the original samples",
  "upsample_image(image,u)[u*r,u*c] = image[r,c] for every u; upsample_factor=1 returns the image; general pixel is the interpolant at ((r-yshift)/u,(c-xshift)/u).  The docstring's 'all reals' is false: the output is complex with non-zero imaginary part for some even-sized images.",
  "every image, integer factor, real shifts", "all images/factors", UP+":upsample_image")
p("1-D and legacy variants",
  "dftups1d(inp,u,m,offset) evaluates the DFT sum at coordinates (j+offset)/u and returns those coordinates; odddftups returns exactly what dftups returns.",
  "every array and parameters", "equivalence of implementations", UP+":dftups1d", UP+":odddftups")
# ---- downsample
p("2-D downsampling is block estimation with cropping",
  "downsample(arr,f,est) has shape (ny//f, nx//f) and each output pixel is est of exactly the f*f input pixels of its block, trailing rows/columns dropped; factor 0 raises ZeroDivisionError, negative factors raise ValueError.",
  "every 2-D array, factor, estimator", "all shapes/factors", DS+":downsample")
p("Block averaging conserves the mean",
  "With the default nanmean: a constant image stays constant; factor 1 is the identity; outputs lie between the block's min and max; NaN pixels are ignored (all-NaN blocks give NaN); when f divides both axes and no NaN is present, mean(out)=mean(in).",
  "every image and factor", "all images", DS+":downsample")
p("Axis downsampling truncates or pads",
  "downsample_axis(arr,f,axis) averages consecutive groups of f along axis only; truncate=True drops the remainder, otherwise the last group averages just the remaining pixels, giving floor/ceil(n/f) outputs.  Raises IndexError on numpy >= 1.23 (list used as an index).",
  "every N-D array, axis, factor", "all shapes, axes, remainders", DS+":downsample_axis")
p("downsample_1d and downsample_cube work",
  "downsample_1d averages groups of a 1-D array and downsample_cube averages the last two axes.  FALSE: every call raises (UnboundLocalError / NameError).  Under python -O, which drops the failing assert, downsample_1d does average groups of a 1-D array; on arrays of higher rank it averages along the first axis when the factor divides it and raises ValueError otherwise.",
  "every argument", "a claim about all inputs; no test calls them", DS+":downsample_1d", DS+":downsample_cube")
# ---- convolve
p("Fill-boundary convolution never wraps",
  "convolvend(array,kernel,boundary='fill',fill_value=v) returns at each pixel sum_k kernel[k]*A(x-(k-nk//2)) with A = array inside and v outside, whatever the fft_pad setting, sizes and parities.",
  "every N-D array and kernel of any sizes, any fill value", "padding/wrap arithmetic over all sizes and parities", CN+":convolvend")
p("Wrap-boundary convolution is circular",
  "convolvend(array,kernel,boundary='wrap') with kernel no larger than the array is circular convolution centred on kernel pixel nk//2.",
  "every N-D array/kernel", "all sizes and parities", CN+":convolvend")
p("Output geometry of convolvend",
  "With crop=True the output shape is the array's shape (even when the kernel is larger); a kernel that is 1 at nk//2 and 0 elsewhere returns the NaN->0 array; mismatched dimensionality raises; 'extend' raises NotImplementedError.",
  "every array/kernel shapes", "all shapes", CN+":convolvend")
p("Normalised kernels conserve",
  "With normalize_kernel=True and boundary='wrap', a constant image is returned unchanged and the total flux is conserved.",
  "every array and kernel with non-zero sum", "all inputs", CN+":convolvend")
p("NaN interpolation is weighted averaging",
  "With interpolate_nan=True and a normalised kernel each output pixel is the kernel-weighted mean of the valid neighbours; zero-weight pixels are 0 when min_wt=0, and pixels with weight below min_wt are NaN.",
  "every NaN mask, kernel, min_wt", "all masks", CN+":convolvend")
p("convolvend leaves the caller's arrays intact",
  "After convolvend returns (or raises), a complex array/kernel passed by the caller has its original contents.  FALSE for a complex kernel containing NaN when normalize_kernel is set (NaNs stay 0) and for the array on the NaN ValueError path.",
  "every input, flag and exit path", "aliasing and crash points", CN+":convolvend")
# ---- correlate
p("correlate2d is circular cross-correlation",
  "correlate2d(im1,im2)[k,l] = sum_ij im1[i,j]*im2[(i+cy-k) mod ny,(j+cx-l) mod nx] with cy=(ny-1)//2, cx=(nx-1)//2: zero lag sits at ((ny-1)//2,(nx-1)//2) for odd and even sizes alike.",
  "every pair of equal-shape real images", "all sizes/parities", CO+":correlate2d")
p("The correlation of an image with its roll peaks at the roll",
  "If im2 is im1 rolled by (dy,dx), correlate2d(im1,im2) attains its maximum at zero-lag minus (dy,dx) modulo the shape, where it equals the image's energy.",
  "every image, every integer roll", "all images", CO+":correlate2d")
# ---- chi2
p("chi2n_map is the chi-squared of every shift",
  "chi2n_map(im1,im2,err)[k,l] equals sum_ij (im2[i,j] - im1 rolled by (cy-k,cx-l)[i,j])^2/err[i,j]^2, for scalar, None and per-pixel errors.",
  "every pair of images and non-zero error maps, every shift pixel", "an identity between FFT algebra and the definition, for all inputs", CH+":chi2n_map")
p("chi2 is non-negative and zero exactly at a perfect match",
  "Every entry of chi2n_map is >= 0; it is 0 at a shift iff im2 equals im1 moved by that shift; with reduced=True it is divided by (number of pixels - 2).",
  "all images, errors, shifts", "all inputs", CH+":chi2n_map")
p("Pixels with zero/NaN error are ignored",
  "A pixel whose error is 0 or NaN has no influence on chi2.  TRUE of that pixel's own data values at zero shift; FALSE at other shifts: the masked pixel contributes the shifted reference image with weight 1.",
  "all error maps", "depends on mask and shift together", CH+":chi2n_map")
p("chi2n_map argument handling",
  "Different shapes raise ValueError; return_all returns (chi2,term1,term2,term3) with chi2=term1+term2+term3; negative errors act as positive; more pixels than astropy's FFT size limit (default 1 GB of complex values) raise ValueError unless allow_huge.",
  "all arguments", "all shapes incl. huge ones", CH+":chi2n_map")
p("chi2_shift recovers whole-pixel shifts exactly when a grid node exists",
  "For im2 = im1 rolled by (dy,dx) (constant errors), odd square images with an integer factor below the size, or even square images with an odd integer factor: Fourier-shifting im1 by the returned (dx,dy) reproduces im2 exactly, and the result is the roll itself (in the centred range) unless im1 has a translational symmetry; for odd sizes the same holds for sub-pixel shifts lying on the final grid.",
  "all sizes, images, rolls and factors", "all images and rolls", CH+":chi2_shift")
p("chi2_shift quantisation and window",
  "The returned shifts lie on a grid of spacing 1/upsample_factor, inside the documented window around the coarse whole-pixel minimum, minimise the interpolated chi2 over that grid, and when an axis gets no node on a whole pixel (odd size with an even number of nodes, or even size with factor plus number of nodes even - in particular every integer factor >= the image height on odd sizes, or when even) a whole-pixel true shift is always missed by at least 1/(2*upsample_factor).",
  "all images, sizes, factors", "all inputs", CH+":chi2_shift")
p("Automatic upsampling never fails",
  "With upsample_factor='auto' the chosen region size is >= 1 pixel, the factor is >= 1, no division by zero happens, and unless clipped the window spans (max_auto_size-1)/max_auto_size times twice the region.",
  "all chi2 maps and max_auto_size", "all maps", CH+":chi2_shift")
p("The sub-pixel window covers the half-pixel neighbourhood",
  "The zoomed grid always covers +-1/2 pixel around the coarse minimum on both axes so every sub-pixel shift is reachable.  FALSE: even images are zoomed off-centre by 1/2 pixel and non-square images get a window narrower than a pixel on the short axis.",
  "all sizes and factors", "size/factor interaction", CH+":chi2_shift")
p("Error bars are well-formed",
  "chi2map_to_errors returns four non-negative numbers no larger than the map extent/zoomfactor, non-decreasing in the threshold, inversely proportional to zoomfactor and unchanged by adding a constant to the map.",
  "every map, zoomfactor>0, positive threshold", "all maps", CH+":chi2map_to_errors")
p("chi2_shift invariances and return layout",
  "With zeromean=True adding constants to either image changes nothing; scaling a scalar error leaves the shifts unchanged (explicit factor); the list returned has 2, 4, or +1 entries according to return_error/return_chi2array; nfitted never changes the error bars for an explicit factor.",
  "all images, constants, flags", "all inputs", CH+":chi2_shift")
p("chi2_shift_iterzoom returns the shift",
  "chi2_shift_iterzoom(im1,im2) returns the offset of im2.  FALSE: every call raises NameError (allow_huge is not a parameter), so register_fits with its default method fails too.",
  "every argument", "statement about all calls", CH+":chi2_shift_iterzoom", MI+":register_fits")
# ---- cross correlation
p("cross_correlation_shifts recovers whole-pixel rolls (even sizes)",
  "For even-sized images with im2 = im1 rolled by (dy,dx) with the correlation peak unique, interior and non-degenerate, the returned (x,y) is exactly (dx,dy) reduced to the centred range.",
  "all even sizes, images, rolls", "all images and rolls", CC+":cross_correlation_shifts")
p("cross_correlation_shifts is unbiased for odd sizes",
  "Same for odd-sized images.  FALSE: the integer centre is computed with true division, so every odd axis is reported +1/2 pixel too large.",
  "all odd sizes", "parity; all images", CC+":cross_correlation_shifts")
p("Sub-pixel refinement is exact on quadratic peaks",
  "If the correlation is exactly quadratic around its peak the Taylor refinement returns the true vertex.  FALSE in general: second derivatives are unpacked in the wrong order and the mixed derivative has the wrong sign; true for isotropic uncorrelated peaks.",
  "all quadratics", "all real coefficients", CC+":cross_correlation_shifts", CC+":second_derivative")
p("second_derivative computes finite differences",
  "At interior pixels second_derivative returns the central second differences along x, along y, and the mixed difference.  The mixed one has the opposite sign; out-of-range neighbours count as 0.",
  "all images and pixels", "all images", CC+":second_derivative")
p("maxoff limits the search (cross-correlation)",
  "With maxoff the peak is searched only within +-maxoff pixels.  FALSE: any call with maxoff on images with signal raises TypeError (float slice indices).",
  "all images, maxoff", "all inputs", CC+":cross_correlation_shifts")
p("Degenerate inputs of cross_correlation_shifts",
  "No signal returns (0,0) (even with return_error); a peak on the first row/column raises ValueError instead of a shift; shape mismatch raises ValueError; results are invariant under adding constants (zeromean) and, without a Gaussian fit (see C114), under positive scaling.",
  "all images", "all inputs", CC+":cross_correlation_shifts")
# ---- register
p("register_images recovers whole-pixel rolls (usfac=1)",
  "register_images(im, roll(im,(dy,dx))) returns [dx,dy] reduced to the centred range when the autocorrelation peak is unique.",
  "all sizes, images, rolls", "all images and rolls", RI+":register_images", RI+":dftregistration")
p("register_images recovers rolls at every upsampling factor",
  "The same holds for every non-zero integer usfac (and any usfac<=2) when no Fourier shift reproduces the image up to a unit factor: the true shift lies on the final grid and |CC| is maximal there.  FALSE for non-integer usfac>2 (the grid can miss whole pixels).",
  "all sizes, images, rolls, factors", "all factors", RI+":register_images", UP+":dftups")
p("register_images maximises the correlation on its grid",
  "The returned shift is a point of a grid of spacing 1/usfac within 3/4 pixel (plus rounding) of the coarse half-pixel estimate and maximises |cross-correlation interpolant| over it.",
  "all images, factors", "all inputs", RI+":dftregistration")
p("maxoff limits the search (register_images)",
  "For usfac=1 and 1<=maxoff the reported shift has absolute value <= maxoff on both axes; for usfac=2 it is <= maxoff/2.  maxoff=0 imposes no limit.",
  "all images, sizes, maxoff", "all inputs", RI+":dftregistration")
p("The registered image is im2 aligned to im1",
  "register_images(..., return_registered=True) returns im2 shifted onto im1.  FALSE: the result is additionally rolled by half the image (ifftshift) and made absolute.",
  "all images", "all images", RI+":register_images")
p("register_images interface",
  "Shape mismatch and usfac=0 raise ValueError; return_error appends 1/usfac twice; single-row/column images report 0 on that axis (usfac<>1); adding constants (zeromean) and multiplying by non-zero constants of either sign does not change the shift.",
  "all images, flags, constants", "all inputs", RI+":register_images")
# ---- iterative zoom
p("iterative_zoom terminates",
  "For zoomstep>1 and mindiff>0 the zoom loop of iterative_zoom and iterative_zoom_1d stops after finitely many iterations (explicit bound from the image); for zoomstep=1 it can run forever.",
  "all images, zoomshape, zoomstep, mindiff", "termination for all inputs", IZ+":iterative_zoom", IZ+":iterative_zoom_1d")
p("iterative_zoom stays near the pixel minimum",
  "The returned centre is within (zoomshape-1)/2/(zoomstep-1) pixels of the whole-pixel minimum on each axis, the zoom factor is zoomstep^iterations, and offset = centre - (n-1)/2.",
  "all images and iteration counts", "invariant over all iterations", IZ+":iterative_zoom")
p("iterative_zoom edge behaviour",
  "Constant images raise ValueError; when the smallest non-zero difference is already <= mindiff, return_center=True raises UnboundLocalError and return_center=False returns offset 0 wherever the minimum is (so 'returns the minimum position' is FALSE).  Images that are not 2-D never zoom: empty, constant or NaN-holding ones raise ValueError, small differences give zeros (or UnboundLocalError), larger ones raise IndexError (1-D), ValueError or NotImplementedError (3-D and more); iterative_zoom_1d likewise for data that are not 1-D.",
  "all images", "all inputs", IZ+":iterative_zoom")
# ---- kernels
p("make_kernel normalises and centres",
  "Gaussian/boxcar/tophat kernels with the default normalisation sum to 1; Gaussian peaks at n//2; boxcar is 1/w^d on the w pixels from n//2-w//2; force_odd gives odd shape; trapezoids are flat inside w and fall linearly outside; unknown types, missing slope and airy raise.  (numpy >= 1.23 rejects the list index of the boxcar branch: IndexError.)",
  "all shapes and widths", "all shapes", SM+":make_kernel")
p("tophat/boxcar kernels are centred on the FFT origin",
  "Smoothing kernels are symmetric about pixel n//2 so that smoothing does not shift the image.  True for every gaussian, for tophats on odd sizes and for boxcars of odd width no wider than the shape.  FALSE for tophats on even sizes (centred on (n-1)/2), boxcars of even width, and boxcars wider than the shape (the start index wraps: width 6 on 4 pixels puts everything on the last pixel).",
  "all shapes and widths", "parity", SM+":make_kernel")
p("smooth returns a smoothed image",
  "smooth(image,...) returns an image of the same shape.  FALSE on the supported Pythons: every call raises (dict.has_key, float sizes).",
  "every argument", "all calls", SM+":smooth")
# ---- FITS
p("header_overlap builds the enclosing/common box",
  "For headers needing no wrap, union gives a box containing both footprints and intersection the common box; footprints without a common point along an axis give size 0 on it (so their union is FALSE: the result is empty); the result is symmetric in box and size and pixel scale magnitude is the finer of the two (FALSE when only one header has a CD matrix); other overlap strings raise ValueError; whole turns of longitude do not matter, but a footprint straddling the wrap longitude is misplaced.",
  "all linear headers", "all real corner values", FO+":header_overlap")
p("header_overlap sizes cover the box",
  "NAXIS*|CDELT| is at least the box width and less than one pixel more; the box centre is CRVAL and CRPIX=NAXIS/2; CDi_j keys are removed and other cards kept.",
  "all headers", "all inputs", FO+":header_overlap")
p("match_fits returns equal-shape images and honours sigma_cut",
  "match_fits either raises ValueError or returns two images of identical shape; with sigma_cut every pixel is either the original or 0, pixels above threshold are kept, and if the cut leaves no common signal the uncut images are returned.",
  "all images, cuts", "all inputs", MI+":match_fits")
p("register_fits output layout",
  "register_fits returns xoff,yoff,xoff*cdelt1,yoff*cdelt2 followed by exactly the requested extras in the documented order, and the shifted image is shift2d(image2,-xoff,-yoff).",
  "all flags and register methods", "2^4 flag combinations with arbitrary methods", MI+":register_fits")
p("cross_correlation_shifts_FITS world offsets",
  "World offsets are (xoff*CD1_1, yoff*CD2_2), or (0,0) when the header has no CD matrix; sigma_cut falls back when it removes all common signal; unequal shapes raise ValueError.",
  "all CD matrices/offsets", "all inputs", CC+":cross_correlation_shifts_FITS")
p("load_header/load_data/get_cd dispatch",
  "Headers, HDUs, FITS paths, text headers and header strings are tried in that order; arrays are returned unchanged; get_cd returns the diagonal CD element, CDELT when there is no CD matrix, and None (a gap) when the CD element is 0.",
  "all argument kinds", "all combinations of kinds and failures", LH+":load_header", LH+":load_data", LH+":get_cd")
# ---- mutation / cross-cutting
p("Registration functions do not modify their inputs",
  "chi2n_map, chi2_shift, register_images, cross_correlation_shifts, shiftnd leave every buffer of the caller unchanged, even if the same array is passed for several arguments.  chi2_shift_leastsq is an exception: it overwrites the caller's error map where im2 is NaN.",
  "all heaps, aliasings, NaN patterns", "aliasing and all contents", CH+":chi2n_map", CH+":chi2_shift_leastsq", RI+":register_images", SH+":shiftnd")
p("All methods agree in sign and axis order",
  "On a whole-pixel roll for which each succeeds, chi2_shift, register_images and cross_correlation_shifts (even sizes) all report x first, then y, with the same sign; shifting im2 by minus the result restores im1 (README recipe).",
  "all images and rolls", "all inputs", CH+":chi2_shift", RI+":register_images", CC+":cross_correlation_shifts", SH+":shiftnd")
exec(open(os.path.join(os.path.dirname(os.path.abspath(__file__)), "more_properties.py")).read()) if os.path.exists(os.path.join(os.path.dirname(os.path.abspath(__file__)), "more_properties.py")) else None
out = os.path.join(os.path.dirname(os.path.abspath(__file__)), "..", "properties.jsonl")
with open(out, "w") as f:
    for q in P: f.write(json.dumps(q) + "\n")
print(len(P))
