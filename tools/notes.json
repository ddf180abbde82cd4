{
 "C01": {
  "note": "Real, complex and modulus output; any dimension."
 },
 "C02": {
  "note": "Composition and inversion for any real offsets and phases."
 },
 "C03": {
  "note": "Proved under exactly the condition in the statement (all axes odd, or one shift whole-pixel); the unconditional version is refuted by C03_real_shifts_compose_refuted (image [1,-1], two half-pixel shifts)."
 },
 "C09": {
  "note": "numpy.fft and fftw3 plans are external code, modelled by their documented (un)normalised DFT definitions."
 },
 "C45": {
  "note": "No non-degeneracy hypothesis: the Hessian of an autocorrelation at a strict maximum is proved non-degenerate.  Peak on the last row/column: refuted (half a pixel off) by C45_last_row_refuted; on the first: ValueError, C50."
 },
 "C46": {
  "note": "The property is false; the theorem gives the exact bias (+1/2 on every odd axis)."
 },
 "C47": {
  "note": "Exact characterisation (iff) of when the refinement returns the vertex, plus a concrete refutation."
 },
 "C49": {
  "note": "The property is false; proved that every call with maxoff and signal raises TypeError."
 },
 "C72": {
  "note": "The property is false; refuted on a concrete image and factor."
 },
 "C51": {
  "note": "Also proved for any image pair with a unique |correlation| peak and with maxoff; without the sign condition refuted (image (1,-1))."
 },
 "C52": {
  "note": "Integer factors and all factors <= 2; non-integer factors refuted by C52_noninteger_factor_refuted."
 },
 "C54": {
  "note": "Bounds for usfac = 1, <= 2, > 2 (M/2 + 3/4 + 1/usfac); refuted: -maxoff itself is excluded, and for usfac = 2 the limit counts half pixels."
 },
 "C55": {
  "note": "The property is false; the theorems state exactly what is returned, for all inputs."
 },
 "C44": {
  "note": "The property is false (NameError on every call).  Also shown: if the name existed, the answer would be (0,0) whenever the chi2 differences are at most mindiff.  C44_repaired_* theorems say what the function would return with the missing name supplied."
 },
 "C57": {
  "note": "Explicit bound from the image, 1-D and 2-D; zoomstep=1 shown to run forever for every odd image with a central extremum."
 },
 "C59": {
  "note": "'Returns the minimum position' refuted by C59_minimum_position_refuted."
 },
 "C74": {
  "note": "True for odd zoomshape; refuted for even zoomshape."
 },
 "C60": {
  "note": "Boxcar: proved for the numpy that accepts a list of slices as index (< 1.23); on later ones every boxcar call raises IndexError (C60_boxcar_on_current_numpy_refuted)."
 },
 "C61": {
  "note": "False as stated; proved exactly where it holds and refuted on concrete kernels elsewhere."
 },
 "C62": {
  "note": "The property is false; proved that no call to smooth returns."
 },
 "C63": {
  "note": "True for overlapping footprints; refuted for disjoint union, mixed CD/CDELT headers and footprints straddling the wrap longitude."
 },
 "C75": {
  "note": "The property is false; the theorem states the exact size and offset of the result."
 },
 "C76": {
  "note": "The property is false; the theorems give the exception for every method except chi2_shift (which is C66)."
 },
 "C68": {
  "note": "astropy's readers are parameters; what is proved is the dispatch, including the gaps (None for unreadable files and zero CD elements, negative axis numbers)."
 },
 "C31": {
  "note": "False as stated; C31_effects says exactly what every array holds afterwards.  Successful calls lose the other component of NaN pixels of complex arrays; exceptions and normalised kernels lose the NaNs."
 },
 "C69": {
  "note": "Proved for register_images, chi2n_map, cross_correlation_shifts and shiftnd; refuted for chi2_shift_leastsq, which writes inf into the error map.  chi2_shift and register_fits only call these."
 },
 "C70": {
  "note": "chi2_shift, register_images and shift2d for all sizes; cross_correlation_shifts for even sizes (odd sizes: half-pixel bias, C46); chi2_shift_iterzoom always raises (C44)."
 },
 "C77": {
  "note": "The property is false; every such call raises TypeError."
 },
 "C78": {
  "note": "lmfit is an arbitrary strategy that asks for residuals at points of its choice."
 },
 "C79": {
  "note": "Dimension 2 in full; for other dimensions the failure is proved."
 }
}