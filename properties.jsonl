{"id": "C01", "title": "Work splitting covers every slice exactly once", "statement": "Whatever array length, core count and chunk size a caller passes to a parallel tomopy function, the slices the work is split into are in bounds, pairwise disjoint and together contain every index of the split axis exactly once; only an empty axis is rejected.", "quantifier": "for every axis length >= 1, every ncore >= 1 (or None: the CPU count) and every nchunk >= 0 (or None)", "why_tests_cant": "the space of (length, ncore, nchunk) triples is unbounded; a missed or doubled slice appears only at particular remainders", "anchors": ["source/tomopy/util/mproc.py:get_ncore_slices", "source/tomopy/util/mproc.py:get_ncore_nchunk"]}
{"id": "C02", "title": "Default work splitting is balanced", "statement": "With the default chunking the work is split into min(ncore, length) non-empty chunks in increasing order whose sizes differ by at most one.", "quantifier": "for every axis length >= 1 and every core count >= 1", "why_tests_cant": "balance has to hold for all remainders of length modulo ncore", "anchors": ["source/tomopy/util/mproc.py:get_ncore_slices"]}
{"id": "C03", "title": "MPI splitting: every slice is owned by exactly one rank", "statement": "When the axis is split over the ranks of a communicator, the ranges handed to the ranks are disjoint, ordered and cover the axis exactly once.", "quantifier": "for every axis length and every communicator size >= 1", "why_tests_cant": "tests run with one or two ranks on one length; ownership has to be exclusive for all of them", "anchors": ["source/tomopy/util/mproc.py:get_worker_ncore_slices"]}
{"id": "C04", "title": "Parallel execution is schedule independent", "statement": "The array returned by a parallel filter equals the one obtained by applying the filter to the slices one after another, whichever order the jobs are picked up and completed in and however their element writes interleave; entries outside the slices and the other inputs are not changed.", "quantifier": "for every job list with disjoint slices, every interleaving of the jobs, every slice-local function", "why_tests_cant": "a test observes one interleaving per run and the number of interleavings grows exponentially", "anchors": ["source/tomopy/util/mproc.py:distribute_jobs", "source/tomopy/util/mproc.py:_arg_parser"]}
{"id": "C05", "title": "Job failures are never silent", "statement": "When the work is spread over several processes: if a job raises or a worker dies, the call raises; jobs that ask to be run on the host are run there; and a result is only returned when every job ran exactly once.", "quantifier": "for every job list, every order in which the pool completes the jobs and every failure pattern", "why_tests_cant": "the failure pattern and the moment a failure is noticed range over all subsets and prefixes of the job list", "anchors": ["source/tomopy/util/mproc.py:distribute_jobs", "source/tomopy/util/mproc.py:RunOnHostException"]}
{"id": "C06", "title": "Argument validation of recon is exact and history independent", "statement": "A reconstruction call is accepted exactly when the algorithm is callable or a known name, every keyword belongs to that algorithm's documented keyword set, and the geometry arguments are consistent; the verdict does not depend on which reconstructions were run before in the same process.", "quantifier": "for every sequence of earlier calls and every argument set", "why_tests_cant": "module-level tables are shared by all calls of a process, so only a claim over all histories excludes leakage from one call to the next", "anchors": ["source/tomopy/recon/algorithm.py:recon", "source/tomopy/recon/algorithm.py:allowed_recon_kwargs"]}
{"id": "C07", "title": "Every sinogram is reconstructed exactly once, into its own slice", "statement": "A distributed reconstruction writes each output slice exactly once from the sinogram, centre and initial guess with the same index, independent of the number of threads, the chunk size and the order in which the pool runs the chunks.", "quantifier": "for every number of slices, thread count, chunk size and pool schedule", "why_tests_cant": "off-by-one chunk boundaries and schedule dependence only show up at particular sizes and interleavings", "anchors": ["source/tomopy/recon/algorithm.py:_dist_recon", "source/tomopy/recon/algorithm.py:_run_accel_algorithm"]}
{"id": "C08", "title": "Process settings are restored after a reconstruction", "statement": "The thread-count environment variable a reconstruction changes is back at its previous value (or absent) after every sequence of returning calls, and the numexpr thread count changed by set_numexpr_threads is back at its previous value whether the guarded code returned or raised.", "quantifier": "for every previous value, every sequence of calls, every nesting of guarded regions and every point at which guarded code raises", "why_tests_cant": "tests never check global state after an exception at an arbitrary point", "anchors": ["source/tomopy/recon/algorithm.py:_dist_recon", "source/tomopy/util/mproc.py:set_numexpr_threads"]}
{"id": "C09", "title": "Flat-field normalisation is safe and exact", "statement": "Every normalised pixel is (projection - mean dark) divided by max(mean flat - mean dark, 1e-6), capped by cutoff when one is given; no pixel is divided by zero, pixels do not influence each other, and for ideal Beer-Lambert data minus_log of the result returns the line integral.", "quantifier": "for every stack of projections, flats and darks and every cutoff", "why_tests_cant": "the denominators that matter (equal flats and darks, dead pixels) are sparse in random test data", "anchors": ["source/tomopy/prep/normalize.py:normalize", "source/tomopy/prep/normalize.py:_normalize", "source/tomopy/prep/normalize.py:minus_log"]}
{"id": "C10", "title": "Nearest-flat normalisation partitions the projections", "statement": "Each projection is normalised exactly once, the projections belonging to one flat location form consecutive ranges covering all projections, and the location used is the nearest one up to a difference of one projection.", "quantifier": "for every number of projections and every list of flat locations", "why_tests_cant": "group boundaries are computed with floating rounding, so every parity and every length matters", "anchors": ["source/tomopy/prep/normalize.py:normalize_nf"]}
{"id": "C11", "title": "Background normalisation uses the air on both sides", "statement": "After normalize_bg a pixel equals the original divided by the straight line through the left and right air averages of its row (averages that are not positive are replaced by one); rows are independent.", "quantifier": "for every image size, air width and row content", "why_tests_cant": "depends on index arithmetic at the row ends for all widths", "anchors": ["source/libtomo/prep/prep.c:normalize_bg", "source/tomopy/prep/normalize.py:normalize_bg"]}
{"id": "C12", "title": "adjust_range clamps and nothing else", "statement": "For data without not-a-number, adjust_range with two limits returns values between them, leaves values already inside unchanged, replaces the others by the limit they violate, and applying it again changes nothing; a single limit not beyond all data is treated the same way.", "quantifier": "for every float32 value including infinities, signed zero and NaN, and every pair of limits", "why_tests_cant": "special values and equal/reversed limits multiply into cases no finite test enumerates for arrays", "anchors": ["source/tomopy/misc/corr.py:adjust_range"]}
{"id": "C13", "title": "remove_nan and remove_neg replace exactly the bad values", "statement": "After remove_nan no NaN is left and all other entries are bit-identical; after remove_neg no entry is below zero and all others are bit-identical; the operations are idempotent and (with a finite non-negative fill value) commute.", "quantifier": "for every float array and every fill value", "why_tests_cant": "the fill value itself may be NaN or negative; all combinations have to be covered", "anchors": ["source/tomopy/misc/corr.py:remove_nan", "source/tomopy/misc/corr.py:remove_neg"]}
{"id": "C14", "title": "median_filter_nonfinite repairs exactly the non-finite pixels", "statement": "If the call returns, entries that were finite are untouched and each other entry is the median of the finite entries of the original data in its clipped window; it raises exactly when a non-finite entry has no finite entry in its window; projections do not influence each other.", "quantifier": "for every image, every placement of NaN/Inf and every odd or even window size", "why_tests_cant": "clusters of bad pixels interact (repairs are made in place), so all placements have to be considered", "anchors": ["source/tomopy/misc/corr.py:median_filter_nonfinite"]}
{"id": "C15", "title": "3-D median and dezinger kernels", "statement": "Each output voxel of the 3-D median filter is the median of the (2r+1)^3 values around it (a coordinate that would leave the volume is replaced by the voxel's own); the dezinger variant returns either the original voxel or that median, the latter exactly when they differ by at least the threshold; the result does not depend on the order in which threads visit the voxels.", "quantifier": "for every volume, window size, threshold and thread count", "why_tests_cant": "needs correctness of the selection for all value arrangements and all border positions", "anchors": ["source/libtomo/misc/median_filt3d.c:medianfilter_main_float", "source/tomopy/misc/corr.py:median_filter3d", "source/tomopy/misc/corr.py:remove_outlier3d"]}
{"id": "C16", "title": "remove_outlier only lowers bright pixels", "statement": "remove_outlier never raises a value; a pixel is replaced by the local median exactly when it exceeds it by at least the threshold, all other pixels are unchanged.", "quantifier": "for every array, threshold and window size", "why_tests_cant": "exactness at the threshold for all values cannot be sampled", "anchors": ["source/tomopy/misc/corr.py:remove_outlier"]}
{"id": "C17", "title": "circ_mask masks the outside of a centred disc", "statement": "circ_mask keeps exactly the pixels strictly inside the centred disc (ellipse-free, radius ratio*min/2), replaces all others by the given value, treats all slices alike, is symmetric under reflection and idempotent.", "quantifier": "for every slice size, ratio, value and slice count", "why_tests_cant": "pixel-exact membership on the circle for all sizes and parities", "anchors": ["source/tomopy/misc/corr.py:circ_mask", "source/tomopy/misc/corr.py:_get_mask"]}
{"id": "C18", "title": "pad keeps the data and fills the border", "statement": "pad enlarges the chosen axis by npad on both sides, keeps the original data in the middle in order, and fills the border with the edge value or the constant; cropping the border returns the input.", "quantifier": "for every array shape, axis, npad and mode", "why_tests_cant": "shape and axis combinations are unbounded", "anchors": ["source/tomopy/misc/morph.py:pad", "source/tomopy/misc/morph.py:_get_npad"]}
{"id": "C19", "title": "downsample averages blocks and upsample repeats them", "statement": "downsample along an axis whose size is a multiple of 2^level replaces each group of 2^level consecutive entries by their mean, upsample repeats each entry 2^level times, and downsampling an upsampled array gives the array back, along each of the three axes.", "quantifier": "for every shape, level and axis", "why_tests_cant": "flat-index arithmetic has to be right for all strides and for sizes that are not multiples of the factor", "anchors": ["source/libtomo/misc/morph.c:downsample", "source/libtomo/misc/morph.c:upsample", "source/tomopy/misc/morph.py:downsample"]}
{"id": "C20", "title": "sino_360_to_180 stitches with weights summing to one", "statement": "Converting an offset 360-degree scan to 180 degrees keeps the non-overlapping columns of both halves (the second one mirrored) and blends an overlap of at least two columns with weights that add up to one, so a scan that sees the same value in both halves is reproduced unchanged.", "quantifier": "for every scan size, overlap and rotation side", "why_tests_cant": "weights at overlap 0 and 1 and odd numbers of projections are boundary cases of an unbounded family", "anchors": ["source/tomopy/misc/morph.py:sino_360_to_180"]}
{"id": "C21", "title": "Ray tracing stays inside the grid", "statement": "For each ray the traced segments address only pixels of the grid, the number of grid intersections never exceeds the buffers allocated for them, and consecutive intersections are ordered along the ray, so that the weights of a ray add up to its length and no pixel gets two non-zero weights.", "quantifier": "for every grid size, offset and number of pixels; addressing and buffers for every angle, ordering for every angle on an axis or at least 3e-9 rad away from it (exact arithmetic)", "why_tests_cant": "memory safety has to hold for all real-valued ray positions", "anchors": ["source/libtomo/recon/utils.c:calc_coords", "source/libtomo/recon/utils.c:trim_coords", "source/libtomo/recon/utils.c:sort_intersections", "source/libtomo/recon/utils.c:calc_dist"]}
{"id": "C22", "title": "Merging grid intersections is a sorted merge", "statement": "The intersections of a ray with the vertical and the horizontal grid lines are merged into one list containing each of them exactly once, ordered along the ray, for both orientations of the ray.", "quantifier": "for every pair of monotone intersection lists", "why_tests_cant": "all interleavings of the two lists and ties are possible", "anchors": ["source/libtomo/recon/utils.c:sort_intersections"]}
{"id": "C23", "title": "Forward projection is linear and filtered-free back projection is its adjoint", "statement": "project is linear in the object, and the back projection in fbp is its exact transpose: <project(x), y> = <x, backproject(y)>.", "quantifier": "for every object, data, geometry (in exact arithmetic)", "why_tests_cant": "adjointness is a statement over all pairs of vectors", "anchors": ["source/libtomo/recon/project.c:project", "source/libtomo/recon/fbp.c:fbp", "source/libtomo/recon/utils.c:calc_simdata"]}
{"id": "C24", "title": "ART is a Kaczmarz projection", "statement": "After ART processed a ray the ray sum of the image equals the measurement, a consistent image is never changed, and with consistent data the distance to every exact solution never increases over any number of iterations.", "quantifier": "for every geometry, data set, start image and number of iterations (exact arithmetic)", "why_tests_cant": "convergence behaviour is a claim over all iterations and all solutions", "anchors": ["source/libtomo/recon/art.c:art"]}
{"id": "C25", "title": "BART/SIRT: consistent images are fixed points", "statement": "An image whose projections equal the data is returned unchanged for any number of iterations and blocks; pixels no ray hits are never changed.", "quantifier": "for every geometry, block count, block order and number of iterations (exact arithmetic)", "why_tests_cant": "iteration counts and block structures are unbounded", "anchors": ["source/libtomo/recon/bart.c:bart", "source/tomopy/util/extern/recon.py:c_sirt"]}
{"id": "C26", "title": "MLEM/OSEM keep images non-negative and conserve counts", "statement": "With non-negative data and a positive start image every iterate is non-negative, an image reproducing the data is a fixed point, and after every single-block iteration the image weighted with the ray sensitivities has the same total as the data.", "quantifier": "for every geometry, data, start image and number of iterations (exact arithmetic)", "why_tests_cant": "an invariant over all iterations and geometries", "anchors": ["source/libtomo/recon/osem.c:osem", "source/tomopy/util/extern/recon.py:c_mlem"]}
{"id": "C27", "title": "Ordered subsets visit every projection once per iteration", "statement": "For every number of blocks the subsets used in one iteration of an ordered-subset algorithm are disjoint and together contain each projection exactly once, and a permutation as block order keeps this.", "quantifier": "for every number of projections and blocks", "why_tests_cant": "remainder handling has to be right for all pairs", "anchors": ["source/libtomo/recon/osem.c:osem", "source/libtomo/recon/bart.c:bart", "source/libtomo/recon/ospml_quad.c:ospml_quad"]}
{"id": "C28", "title": "Penalised likelihood update is the positive minimiser", "statement": "For a positive penalty, positive data and a positive start image, every iterate of the quadratic and the hybrid penalty solver is finite and positive and minimises, pixel by pixel, the penalised surrogate around the last iterate, where the penalty is a mean over the touching pixels weighted by inverse distance, also at borders and corners. A constant image with the measured ray sums is a fixed point. Without penalty the image is never changed.", "quantifier": "for every image size >= 2, data and penalty (exact arithmetic)", "why_tests_cant": "all border configurations and all coefficient values", "anchors": ["source/libtomo/recon/ospml_quad.c:ospml_quad", "source/libtomo/recon/ospml_hybrid.c:ospml_hybrid"]}
{"id": "C29", "title": "Gridrec does not mix slices", "statement": "Each reconstructed slice depends only on its own sinogram and its own rotation centre, so the result for a slice does not depend on how the slices are grouped into chunks.", "quantifier": "for every number of slices, centre list and chunking", "why_tests_cant": "grouping and parity of chunks vary with the core count of the machine", "anchors": ["source/libtomo/gridrec/gridrec.c:gridrec", "source/tomopy/recon/algorithm.py:_dist_recon"]}
{"id": "C30", "title": "Ring removal: rolling median equals the windowed median", "statement": "The fast rolling median used by remove_ring equals, at every position, the middle element of the sorted window, and the index-tracking sorts it relies on return sorted permutations.", "quantifier": "for every row length, window radius and content", "why_tests_cant": "the rolling structure is updated incrementally, so the claim is an invariant over all positions and value arrangements", "anchors": ["source/libtomo/misc/remove_ring.c:median_filter_fast_1D", "source/libtomo/misc/remove_ring.c:quick_sort_2_arrays", "source/libtomo/misc/remove_ring.c:bubble_2_arrays"]}
{"id": "C31", "title": "Ring removal: rolling mean equals the windowed mean", "statement": "The fast azimuthal mean used by remove_ring equals the mean of the window around each angle with the selected wrap-around or reflecting boundary.", "quantifier": "for every number of angles, window size and content", "why_tests_cant": "running sums accumulate, so an off-by-one shows only at some positions and lengths", "anchors": ["source/libtomo/misc/remove_ring.c:mean_filter_fast_1D"]}
{"id": "C32", "title": "Inpainting only touches masked voxels and completes", "statement": "Voxels outside the mask are returned unchanged; with positive data every masked voxel connected to data is filled after finitely many sweeps, and the distance-weighted fill stays between the minimum and the maximum of the data.", "quantifier": "for every image, mask, window size and number of iterations", "why_tests_cant": "mask shapes are unbounded and the number of sweeps depends on them", "anchors": ["source/libtomo/misc/inpainter.c:Inpainter_morph_main", "source/tomopy/misc/corr.py:inpainter_morph"]}
{"id": "C33", "title": "Phase retrieval padding", "statement": "Before filtering, each projection sits unchanged in the middle of the padded buffer, the border replicates its edge pixels and nothing of a previously processed projection is left; the padded size is large enough and without padding the projection itself is what is filtered.", "quantifier": "for every projection size, pad width and history of the shared buffer", "why_tests_cant": "the buffer is reused for all projections, so the claim ranges over histories; pad widths of zero are boundary cases", "anchors": ["source/tomopy/prep/phase.py:_retrieve_phase", "source/tomopy/prep/phase.py:_calc_pad"]}
{"id": "C34", "title": "Sorting-based stripe removal restores positions", "statement": "Sorting each column, filtering and undoing the sort puts each value back at its own projection: with a filter that changes nothing the sinogram is returned unchanged, and in general the rank order of the values in a column is kept.", "quantifier": "for every sinogram and every filter that keeps columns sorted", "why_tests_cant": "needs all permutations a column can induce, including ties", "anchors": ["source/tomopy/prep/stripe.py:_rs_sort", "source/tomopy/prep/stripe.py:_create_matindex"]}
{"id": "C35", "title": "Stripe smoothing filter fixes the column means", "statement": "remove_stripe_sf shifts every column by a constant so that its mean equals the smoothed mean of the neighbouring columns; differences between projections inside a column are unchanged.", "quantifier": "for every sinogram size and window size", "why_tests_cant": "border clamping for all widths", "anchors": ["source/libtomo/prep/stripe.c:remove_stripe_sf"]}
{"id": "C36", "title": "Titarenko stripe removal keeps all projections", "statement": "remove_stripe_ti with several blocks processes every projection; none is lost or replaced by a constant.", "quantifier": "for every number of projections and blocks", "why_tests_cant": "projection counts that are not multiples of the block count are an infinite family", "anchors": ["source/tomopy/prep/stripe.py:_ringb", "source/tomopy/prep/stripe.py:_remove_stripe_ti"]}
{"id": "C37", "title": "Phantoms are sums of ellipsoids", "statement": "Each voxel of a phantom is the sum of the intensities of the ellipsoids containing it, independent of the order in which they are listed; overlapping and empty ellipsoid lists included.", "quantifier": "for every size and every parameter list", "why_tests_cant": "all lists and orders", "anchors": ["source/tomopy/misc/phantom.py:phantom", "source/tomopy/misc/phantom.py:_ellipsoid"]}
{"id": "C38", "title": "Detector drift alignment always yields an image", "statement": "When none of the detection kernels succeeds, the drift correction falls back to the uncorrected positions as documented instead of failing, and it terminates.", "quantifier": "for every image series and every outcome of the detections", "why_tests_cant": "the number of failed detections needed is larger than any realistic test provokes", "anchors": ["source/tomopy/prep/alignment.py:detector_drift_adjust_aps_1id"]}
{"id": "C39", "title": "Scan positions stay inside the object", "statement": "Every probe position generated for a raster scan lies completely inside the projection, and position generation terminates.", "quantifier": "for every probe size, projection size and step", "why_tests_cant": "termination and fit for all size combinations", "anchors": ["source/tomopy/sim/propagate.py:_rect_scan_coords"]}
{"id": "C40", "title": "Lens distortion correction is the same for sinograms and projections", "statement": "The corrected sinogram of row r equals row r of the corrected projections, coordinates are always clipped into the image and the trivial model leaves images unchanged.", "quantifier": "for every image, centre and coefficient list (exact arithmetic)", "why_tests_cant": "coordinates are real valued; the sub-block used for the sinogram has to contain all rows needed for all models", "anchors": ["source/tomopy/prep/alignment.py:distortion_correction_proj", "source/tomopy/prep/alignment.py:distortion_correction_sino", "source/tomopy/prep/alignment.py:_unwarp_image_backward"]}
{"id": "C41", "title": "ART and the forward projector use each slice's own rotation centre", "statement": "With one rotation centre per slice, art and project process each slice with its own centre, so that results do not depend on how the slices are grouped into chunks.", "quantifier": "for every number of slices, centre list and chunking", "why_tests_cant": "the grouping depends on the core count of the machine; tests use a single centre", "anchors": ["source/libtomo/recon/art.c:art", "source/libtomo/recon/project.c:project", "source/tomopy/sim/project.py:project"]}
{"id": "C42", "title": "The Tikhonov prior is aligned with the slices", "statement": "Reconstruction with algorithm='tikh' and a prior reg_data regularises every slice with the prior of the same slice, whatever the number of threads.", "quantifier": "for every number of slices, core count and chunk size", "why_tests_cant": "with one thread (as on small test data) the alignment is right by accident", "anchors": ["source/libtomo/recon/tikh.c:tikh", "source/tomopy/util/extern/recon.py:c_tikh", "source/tomopy/recon/algorithm.py:_dist_recon"]}
{"id": "C43", "title": "Invalid core and chunk counts are rejected", "statement": "A core count or chunk size with which the work cannot be split makes the call raise; no call returns with slices left unprocessed.", "quantifier": "for every axis length and all integer core counts and chunk sizes", "why_tests_cant": "tests only pass positive counts", "anchors": ["source/tomopy/util/mproc.py:get_ncore_nchunk", "source/tomopy/util/mproc.py:distribute_jobs"]}
{"id": "C44", "title": "Jobs asking for the host run whatever the core count, and the call terminates", "statement": "A job that raises the run-on-host request is executed on the host also when only one core is used, and a job that repeats the request does not make the call run forever.", "quantifier": "for every job list, every core count and every pattern of requests", "why_tests_cant": "needs a claim about non-termination and about every subset of requesting jobs", "anchors": ["source/tomopy/util/mproc.py:distribute_jobs", "source/tomopy/util/mproc.py:clear_queue"]}
{"id": "C45", "title": "Process settings are restored also when a reconstruction raises", "statement": "If the algorithm raises, or the data have an empty dimension, the thread-count environment variable afterwards has the value it had before, and later reconstructions are not affected.", "quantifier": "for every previous value, every sequence of calls and every point at which a call raises", "why_tests_cant": "tests never check global state after an exception", "anchors": ["source/tomopy/recon/algorithm.py:_dist_recon"]}
{"id": "C46", "title": "adjust_range limits hold for all data", "statement": "After adjust_range no number exceeds the given upper limit, also when the data contain not-a-number or lie completely above the limit.", "quantifier": "for every array and every pair of limits", "why_tests_cant": "needs data with a NaN or a limit outside the data range, which no test uses", "anchors": ["source/tomopy/misc/corr.py:adjust_range"]}
{"id": "C47", "title": "median_filter_nonfinite returns finite values between their neighbours", "statement": "Every value median_filter_nonfinite writes is finite and lies between the smallest and the largest finite value of its window.", "quantifier": "for every image, window size and magnitude of the values", "why_tests_cant": "the mean of two middle values is computed in single precision and can overflow only for huge values", "anchors": ["source/tomopy/misc/corr.py:median_filter_nonfinite"]}
{"id": "C48", "title": "A failing median_filter_nonfinite call leaves the data unchanged", "statement": "If median_filter_nonfinite raises because a window has no finite value, the array passed in has not been modified.", "quantifier": "for every image and window size", "why_tests_cant": "tests check the exception but not the array after it", "anchors": ["source/tomopy/misc/corr.py:median_filter_nonfinite"]}
{"id": "C49", "title": "Failures inside filter tasks are reported", "statement": "If filtering one of the slices fails in gaussian_filter, median_filter, remove_outlier or remove_ring, the call raises; it never returns slices that were not computed.", "quantifier": "for every array and every set of failing slices", "why_tests_cant": "failures of a single task cannot be provoked from a test with valid data", "anchors": ["source/tomopy/misc/corr.py:median_filter", "source/tomopy/misc/corr.py:gaussian_filter", "source/tomopy/misc/corr.py:remove_outlier", "source/tomopy/misc/corr.py:remove_ring"]}
{"id": "C50", "title": "3-D median filters use the kernel of the converted data", "statement": "Data of any type other than float32 and uint16 are converted to float32 and filtered by the float32 kernel.", "quantifier": "for every input type", "why_tests_cant": "tests use float32 and uint16 only; reading float data as 16-bit integers still yields an array of the right shape", "anchors": ["source/tomopy/misc/corr.py:median_filter3d", "source/tomopy/misc/corr.py:remove_outlier3d"]}
{"id": "C51", "title": "normalize_nf with one flat location agrees with normalize", "statement": "Normalising with a single flat location gives the same result as normalize with the same flats, darks and averaging mode.", "quantifier": "for every stack of flats and darks and every averaging mode", "why_tests_cant": "the two functions are tested separately on data where mean and median coincide", "anchors": ["source/tomopy/prep/normalize.py:normalize_nf", "source/tomopy/prep/normalize.py:normalize"]}
{"id": "C52", "title": "normalize_nf uses exactly the nearest flat location", "statement": "The flat location used for a projection is never farther away than any other location.", "quantifier": "for every number of projections and every list of flat locations", "why_tests_cant": "holds for most distances between flats; rounding half to even breaks it for distances of the form 4k+1", "anchors": ["source/tomopy/prep/normalize.py:normalize_nf"]}
{"id": "C53", "title": "normalize_roi scales the region mean to one", "statement": "After normalize_roi the mean over the region of a projection is one (unless it was zero), ratios between pixels are unchanged, and repeating it changes nothing.", "quantifier": "for every projection and region", "why_tests_cant": "an identity over all images", "anchors": ["source/tomopy/prep/normalize.py:normalize_roi"]}
{"id": "C54", "title": "downsample drops an incomplete last group", "statement": "If the size of the chosen axis is not a multiple of 2^level, the complete groups are averaged and the remaining entries are dropped.", "quantifier": "for every shape, level and axis", "why_tests_cant": "tests use sizes that are powers of two; the running input index drifts only for other sizes", "anchors": ["source/libtomo/misc/morph.c:downsample"]}
{"id": "C55", "title": "sino_360_to_180 handles overlaps of zero, one and all columns", "statement": "With no overlap the halves are put side by side; with one column of overlap, or full overlap, the blended columns again have weights summing to one.", "quantifier": "for every scan width and rotation side", "why_tests_cant": "the tests use overlaps of several columns", "anchors": ["source/tomopy/misc/morph.py:sino_360_to_180"]}
{"id": "C56", "title": "Every slice is reconstructed and projected with its own centre", "statement": "If the rotation centre differs between slices, the result for a slice depends on the centre of that slice and on no other one.", "quantifier": "for every list of centres and every solver", "why_tests_cant": "tests use one centre for all slices", "anchors": ["source/libtomo/recon/art.c:art", "source/libtomo/recon/project.c:project", "source/libtomo/recon/fbp.c:fbp", "source/libtomo/recon/bart.c:bart", "source/libtomo/recon/osem.c:osem"]}
{"id": "C57", "title": "SIRT does not move away from a solution", "statement": "If an image reproduces the data exactly, a SIRT iteration never increases the distance to it (measured with weights that depend on the geometry only).", "quantifier": "for every geometry, consistent data set, start image and number of iterations", "why_tests_cant": "divergence needs pixels that are hit by short chords only; tests compare a few iterations with stored results", "anchors": ["source/libtomo/recon/bart.c:bart"]}
{"id": "C58", "title": "The assertions of the subset loops hold", "statement": "In a debug build, the assertion on the end of a subset holds in every subset of every call.", "quantifier": "for every number of projections and subsets", "why_tests_cant": "tests run release builds, in which assertions are compiled out", "anchors": ["source/libtomo/recon/bart.c:bart", "source/libtomo/recon/osem.c:osem"]}
{"id": "C59", "title": "Penalised solvers treat slices separately for every grid size", "statement": "The reconstruction of a slice with a quadratic or hybrid penalty depends on the start image and the data of this slice only, for every grid size including a single row.", "quantifier": "for every grid size and every start volume", "why_tests_cant": "tests use square grids; a grid of one row visits each pixel twice and reads rows that do not exist", "anchors": ["source/libtomo/recon/ospml_quad.c:ospml_quad"]}
{"id": "C60", "title": "Ring removal changes no pixel by more than its threshold", "statement": "remove_ring subtracts from each pixel a smoothed difference between the slice and its local median along the ray, and this changes no pixel by more than thresh.", "quantifier": "for every slice content and every parameter set whose windows fit into the slice", "why_tests_cant": "the largest change depends on all windows together; tests compare one image", "anchors": ["source/libtomo/misc/remove_ring.c:ring_filter", "source/libtomo/misc/remove_ring.c:remove_ring"]}
{"id": "C61", "title": "Ring removal leaves constant slices unchanged", "statement": "remove_ring returns a slice of equal values unchanged.", "quantifier": "for every constant, also one beyond thresh_max or thresh_min, and every size, centre and parameter set whose windows fit into the slice", "why_tests_cant": "needs zero padding never to win the median at the rim, for all sizes", "anchors": ["source/libtomo/misc/remove_ring.c:median_filter_fast_1D", "source/libtomo/misc/remove_ring.c:remove_ring"]}
{"id": "C62", "title": "Ring removal works inside the circle and slice by slice", "statement": "remove_ring reads pixels of the slice only, changes pixels within the largest circle around the centre only, and the result for a slice depends on this slice only; any centre is handled.", "quantifier": "for every slice, range of slices and centre", "why_tests_cant": "reads outside an array go unnoticed in tests", "anchors": ["source/libtomo/misc/remove_ring.c:polar_transform", "source/libtomo/misc/remove_ring.c:inverse_polar_transform", "source/tomopy/misc/corr.py:remove_ring"]}
{"id": "C63", "title": "Slice-wise inpainting equals inpainting each slice", "statement": "inpainter_morph with an axis returns a volume whose slices along this axis are the two-dimensional inpaintings of the slices of the input, for every shape; without an axis the whole volume is inpainted in C order and every voxel outside the mask is returned at its place.", "quantifier": "for every volume shape, axis, mask and kernel", "why_tests_cant": "tests use one volume with several rows and columns; slices of one row or column take another path", "anchors": ["source/tomopy/misc/corr.py:inpainter_morph"]}
{"id": "C64", "title": "Phase retrieval keeps the mean of a projection", "statement": "The normalised phase filter has factor one at the zero frequency, so a constant projection is returned unchanged, all factors are in (0, 1], and positive and negative frequencies of equal size have equal factors.", "quantifier": "for every projection size, pixel size, distance, energy and alpha", "why_tests_cant": "tests use one even size; the placement of the zero frequency differs between even and odd sizes", "anchors": ["source/tomopy/prep/phase.py:retrieve_phase", "source/tomopy/prep/phase.py:_reciprocal_coord", "source/tomopy/prep/phase.py:_paganin_filter_factor"]}
{"id": "C65", "title": "Stripe-free sinograms are returned unchanged", "statement": "A sinogram whose columns are all equal contains no stripe; every stripe removal method returns it unchanged.", "quantifier": "for every such sinogram and all parameters accepted by the method", "why_tests_cant": "tests compare stored results for one noisy data set", "anchors": ["source/tomopy/prep/stripe.py:_remove_stripe_ti", "source/tomopy/prep/stripe.py:_rs_sort", "source/tomopy/prep/stripe.py:_rs_large", "source/tomopy/prep/stripe.py:_rs_dead", "source/tomopy/prep/stripe.py:_rs_interpolation", "source/libtomo/prep/stripe.c:remove_stripe_sf"]}
{"id": "C66", "title": "Titarenko's correction is a regularised least squares solution", "statement": "If the conjugate gradient loop of remove_stripe_ti ends by its stopping test, the correction minimises the regularised functional (squared differences of the corrected mean row plus alpha times the squared correction) up to the stopping tolerance divided by alpha; the automatic regularisation parameter is positive whenever it is defined.", "quantifier": "for every mean row, number of pixels, kernel and positive regularisation parameter", "why_tests_cant": "a wrong operator still yields plausible images; tests compare stored values", "anchors": ["source/tomopy/prep/stripe.py:_ringCGM", "source/tomopy/prep/stripe.py:_ringMatXvec", "source/tomopy/prep/stripe.py:_get_parameter"]}
{"id": "C67", "title": "Detected stripes and nothing else are replaced", "statement": "remove_large_stripe, remove_dead_stripe and remove_stripe_based_interpolation replace the columns that are detected as stripes and their neighbours only: by rank-matched smoothed values or by the linear interpolation between the nearest columns that are kept; all other columns keep their values up to their normalisation factor, and finite data give finite results. Columns whose factor equals that of the majority are never detected, columns that deviate clearly always.", "quantifier": "for every sinogram, snr, size and drop ratio", "why_tests_cant": "tests compare stored results of one data set; dead columns at the border do not occur there", "anchors": ["source/tomopy/prep/stripe.py:_detect_stripe", "source/tomopy/prep/stripe.py:_rs_large", "source/tomopy/prep/stripe.py:_rs_dead", "source/tomopy/prep/stripe.py:_rs_interpolation"]}
{"id": "C68", "title": "Simulated probes and propagated intensities follow their formulas", "statement": "The Gaussian probe is positive, largest at its centre, decreasing with the distance, half as large at half the width, and symmetric about the middle of its grid with the default centre. The propagated intensity is the attenuated one if the phase is uniform or the distance zero, its change is linear in the phase and the distance and equals, away from the border and for uniform attenuation, intensity times distance times the discrete Laplacian of the phase.", "quantifier": "for every grid size, width, attenuation and phase map (exact arithmetic)", "why_tests_cant": "formulas over real fields; tests have no reference for them", "anchors": ["source/tomopy/sim/propagate.py:probe_gauss", "source/tomopy/sim/propagate.py:propagate_tie"]}
{"id": "C69", "title": "Slit corners are searched in the whole image and the slit box is cut out", "statement": "The four quadrants searched for slit corners cover every pixel of the image exactly once and their origins are their first row and column; the box cut out lies inside the corners by the margins asked for.", "quantifier": "for every image size, corner list and margin", "why_tests_cant": "tests use images of one size", "anchors": ["source/tomopy/prep/alignment.py:find_slits_corners_aps_1id", "source/tomopy/prep/alignment.py:calc_slit_box_aps_1id", "source/tomopy/prep/alignment.py:remove_slits_aps_1id"]}
{"id": "C70", "title": "Alignment returns aligned images and leaves its input alone", "statement": "scale maps the data into [-1, 1] and is undone by its factor; the blurring frame is one up to the inner and zero from the outer radius, decreasing in between; align_seq and align_joint return images moved by the shifts they report, images without shifts are returned as they are, and the caller's array is not changed.", "quantifier": "for every stack, number of iterations and behaviour of reconstruction, projection, correlation and warping", "why_tests_cant": "tests compare stored results of one data set; effects on the caller's array are not looked at", "anchors": ["source/tomopy/prep/alignment.py:align_seq", "source/tomopy/prep/alignment.py:align_joint", "source/tomopy/prep/alignment.py:scale", "source/tomopy/prep/alignment.py:blur_edges", "source/tomopy/prep/alignment.py:shift_images"]}
{"id": "C71", "title": "Gradient descent lowers the misfit", "statement": "grad returns, after n iterations with a non-negative step parameter, the image of n explicit gradient steps on the squared misfit of the slice (rays of the slice's own centre), independent of the work arrays; with a step below the bound of the rays the misfit never grows, the distance to every image that explains the data never grows, the excess misfit after n steps is at most the squared starting distance over n steps, and images that explain the data are kept. With a negative parameter the first step is fixed and the later ones use the Barzilai-Borwein length, which is at least half the inverse bound.", "quantifier": "for every grid, geometry, data, start image, number of iterations and step (exact arithmetic)", "why_tests_cant": "convergence over all step counts cannot be tested; stored results cover one iteration", "anchors": ["source/libtomo/recon/grad.c:grad"]}
{"id": "C72", "title": "Tikhonov steps minimise the penalised misfit", "statement": "tikh performs gradient steps on the misfit plus reg_par[1] times the squared distance of the image from the prior image; without weight it equals grad; with a small enough step the penalised misfit never grows and approaches its least value at the rate 1/n, minimisers are kept.", "quantifier": "for every grid, geometry, data, prior, start image and number of iterations (exact arithmetic)", "why_tests_cant": "tests use a prior of zeros only", "anchors": ["source/libtomo/recon/tikh.c:tikh"]}
{"id": "C73", "title": "Total variation iteration approaches the regularised solution", "statement": "tv performs the primal-dual iteration for half the squared misfit plus the weighted total variation, independent of its work arrays, and returns the extrapolated image; images with an optimality certificate minimise that cost, and if the step is short enough for the geometry all iterates stay within a fixed multiple of the starting distance of them and consecutive iterates differ by a square summable amount. An image without differences that explains the data is kept. Only pixels that differ from one of their neighbours are moved by the penalty.", "quantifier": "for every grid, geometry, data, start image, positive lambda and number of iterations (exact arithmetic)", "why_tests_cant": "boundedness over all iteration counts and optimality over all images are not testable; tests use one square grid", "anchors": ["source/libtomo/recon/tv.c:tv"]}
{"id": "C74", "title": "A gridrec slice is the gridded Fourier sum of its own projections", "statement": "gridrec writes into row i, column j of slice s the product of two correction factors and the sum over all projections and frequencies of the filtered spectrum of that slice about the centre, spread with the window around its point in the frequency plane: the second slice of a pair, carried in the imaginary part, does not leak into the first one or back, nothing of the previous contents of the volume remains, and the slice equals the slice reconstructed alone with the centre of its pair.", "quantifier": "for every number of slices, projections, detector and grid size up to the padded size, filter, data, centres and angles (exact arithmetic)", "why_tests_cant": "tests compare one stored volume; leakage between paired slices cannot be told from it", "anchors": ["source/libtomo/gridrec/gridrec.c:gridrec"]}
{"id": "C75", "title": "gridrec respects the symmetries of the measurement", "statement": "The reconstruction is linear in the data; angles changed by full turns, projections in another order, projections taken from the opposite side and mirrored about the centre, and data moved along the detector together with the centre give the same volume; with a detector that fills the padded grid, constants added to projections have no effect.", "quantifier": "for every geometry, filter, data set, permutation, shift and set of reversed projections (exact arithmetic)", "why_tests_cant": "needs pairs of related inputs; tests run one input", "anchors": ["source/libtomo/gridrec/gridrec.c:gridrec", "source/libtomo/gridrec/gridrec.c:set_filter_tables"]}
{"id": "C76", "title": "gridrec stays inside its tables", "statement": "The padded size is the least power of two from 16 that holds the detector; the output loops end after at most two rounds and visit every pixel exactly once; grid points, window entries, work entries and correction entries are inside their arrays, and the result does not depend on uninitialised memory.", "quantifier": "for every detector and grid size, angle and centre", "why_tests_cant": "reads behind an array do not fail, they return whatever is there", "anchors": ["source/libtomo/gridrec/gridrec.c:gridrec", "source/libtomo/gridrec/gridrec.c:set_pswf_tables"]}
{"id": "C77", "title": "The interpolation window of gridrec falls and is undone about the origin", "statement": "The table of the window holds the normalised sum of even Legendre polynomials; it falls strictly from 1 and stays positive, so that the correction never divides by zero; the correction is symmetric about the origin of the image, which is the rotation axis.", "quantifier": "for every table entry, padded size and position", "why_tests_cant": "tables are internal; a shift by one entry changes pixel values by small factors", "anchors": ["source/libtomo/gridrec/gridrec.c:legendre", "source/libtomo/gridrec/gridrec.c:set_pswf_tables"]}
{"id": "C78", "title": "Reconstruction filters attenuate high frequencies", "statement": "With the default parameters every named filter lies between zero and the ramp at all used frequencies, and relative to the ramp it does not rise with the frequency; names that are not known mean the default filter.", "quantifier": "for every frequency and name", "why_tests_cant": "tests compare stored reconstructions of each filter", "anchors": ["include/libtomo/filters.h:get_filter", "include/libtomo/filters.h:filter_hann", "include/libtomo/filters.h:filter_shepp"]}
{"id": "C79", "title": "Opposite simulated projections are mirror images", "statement": "A simulated projection at an angle and at the opposite angle (half a turn later) hold the same line sums in mirrored order when the rotation axis is in the middle of the detector; the default angles of tomopy.angles contain both ends of a half turn, so the last projection is the mirrored first one.", "quantifier": "for every object, grid, detector width, slice, pixel and angle off the grid directions or exactly along them (exact arithmetic)", "why_tests_cant": "tests project one phantom; the symmetry is a statement about all angles and pixels", "anchors": ["source/tomopy/sim/project.py:project", "source/tomopy/sim/project.py:angles", "source/libtomo/recon/project.c:project"]}
{"id": "C80", "title": "A padded simulated projection sees the whole object", "statement": "With pad=True every point of the object is between the first and the last detector pixel at every angle, so both border columns are zero; at 0 and 90 degrees the columns are the sums of the rows and columns of voxels and add up to the slice; unpadded projections are the middle part of the padded ones.", "quantifier": "for every object size, angle, slice and pixel (exact arithmetic)", "why_tests_cant": "parity of the sizes decides which rays run along grid lines; tests use one even cube", "anchors": ["source/tomopy/sim/project.py:project", "source/tomopy/sim/project.py:_round_to_even"]}
{"id": "C81", "title": "Simulated projections do not depend on the split into chunks", "statement": "project returns, for every slice, angle and pixel, the line sum of that slice along the ray of that angle and pixel (or exp of its negative), in the asked order of axes, whatever the split of the slices over processes, provided the slices share the centre; angles gives equally spaced angles in radian.", "quantifier": "for every split of the slices, object, angles, centre and flags (exact arithmetic)", "why_tests_cant": "tests run one machine dependent split", "anchors": ["source/tomopy/sim/project.py:project", "source/tomopy/sim/project.py:get_center", "source/tomopy/sim/project.py:angles"]}
{"id": "C82", "title": "Projections of a vector field are line integrals of its component along the ray", "statement": "project2 and project3 add to the data minus the sum along the ray of the component of the field in the direction of view, in the planes across the chosen axis; equivalently minus the cosine and sine weighted projections of the two components; from the opposite side the projection is mirrored and changes sign; nothing outside the arrays is read.", "quantifier": "for every field, grid, angle, slice, pixel and axis (exact arithmetic)", "why_tests_cant": "the existing tests do not call the vector projections", "anchors": ["source/libtomo/recon/project.c:project2", "source/libtomo/recon/project.c:project3", "source/libtomo/recon/utils.c:calc_simdata2", "source/libtomo/recon/utils.c:calc_simdata3"]}
{"id": "C83", "title": "The vector solver keeps solutions and approaches them", "statement": "One iteration of vector moves both components of every pixel by the mean, weighted by ray lengths, of the corrections of the rays through it, each slice with its own centre; fields that explain the data stay; pixels remain finite; the weighted distance to any solution does not grow.", "quantifier": "for every data set, geometry, start and number of iterations (exact arithmetic)", "why_tests_cant": "needs all iteration counts and all solutions; tests compare one run", "anchors": ["source/libtomo/recon/vector.c:vector", "source/tomopy/recon/vector.py:vector"]}
{"id": "C84", "title": "vector2 and vector3 use each data set with its own angles and axis", "statement": "An iteration of vector2 or vector3 corrects, for one data set after the other, the planes across its axis with its geometry, leaving the third component alone; fields that explain all data stay.", "quantifier": "for every cube, data sets, start and number of iterations (exact arithmetic)", "why_tests_cant": "a field consistent with all data sets is needed to see which geometry is used; tests use equal angles", "anchors": ["source/libtomo/recon/vector.c:vector2", "source/libtomo/recon/vector.c:vector3", "source/tomopy/recon/vector.py:vector2"]}
{"id": "C85", "title": "Simulated noise has the documented form", "statement": "Salt and pepper and zingers replace exactly the drawn pixels by the given value (by default the greatest one); Gaussian noise adds the scaled draws; rings multiply every detector pixel, drift every projection, by one factor; the caller's array is not modified.", "quantifier": "for all arrays, parameters and random draws", "why_tests_cant": "tests fix no seed and check shapes", "anchors": ["source/tomopy/sim/project.py:add_drift", "source/tomopy/sim/project.py:add_gaussian", "source/tomopy/sim/project.py:add_rings", "source/tomopy/sim/project.py:add_salt_pepper", "source/tomopy/sim/project.py:add_zingers"]}
{"id": "C86", "title": "The cost minimised by find_center is an entropy of the reconstruction", "statement": "For every reconstruction and candidate the objective of find_center is defined; it is the entropy of the histogram of the image inside the circle, over limits that enclose the image reconstructed without a centre with room to double; it lies between the cost of a uniform image and that of an image spread evenly over the bins, depends on the values only and not on their places, and an image outside the limits is not preferred; ratio sets the circle.", "quantifier": "for every image, size, mask flag and candidate centre (exact arithmetic)", "why_tests_cant": "the tests check one phantom with a tolerance of a pixel", "anchors": ["source/tomopy/recon/rotation.py:find_center", "source/tomopy/recon/rotation.py:_find_center_cost", "source/tomopy/recon/rotation.py:_adjust_hist_limits"]}
{"id": "C87", "title": "The metric of find_center_vo measures the sinogram unfolded about the candidate axis", "statement": "For a candidate at a whole or half column the metric is the mean of the masked amplitudes of the Fourier components of the sinogram placed over its own mirror image about the candidate; it is never negative, scales with the data, ignores a constant offset, and mirrored data give the metric of the mirrored candidate; the weights are symmetric about frequency zero.", "quantifier": "for every sinogram, size and candidate (exact arithmetic)", "why_tests_cant": "indices of flips, rolls and shifted spectra can be off by one without moving the minimum of one phantom", "anchors": ["source/tomopy/recon/rotation.py:_calculate_metric", "source/tomopy/recon/rotation.py:find_center_vo"]}
{"id": "C88", "title": "The searches of find_center_vo return the first best candidate of the documented range", "statement": "The coarse search tries every half column between the bounds, the fine search equal steps over the search radius; both return a candidate that no other beats and no earlier one equals, on the detector and not worse than the start; the coarse answer does not change with scale and offset of the data; binning large data leads to the same axis; only the chosen slices matter.", "quantifier": "for every metric, width, bounds, radius, step, start and volume", "why_tests_cant": "needs all metrics; the tests run one easy sinogram", "anchors": ["source/tomopy/recon/rotation.py:_search_coarse", "source/tomopy/recon/rotation.py:_search_fine", "source/tomopy/recon/rotation.py:find_center_vo"]}
{"id": "C89", "title": "The mask of find_center_vo is the double wedge", "statement": "The mask is 0 or 1: 1 inside the double wedge whose slope is given by the number of projections, the width and the radius, except in the three middle columns and the dropped middle rows; a smaller radius only adds elements; the mask is not empty.", "quantifier": "for every size, radius and drop and every element (exact arithmetic)", "why_tests_cant": "a wrong slope changes the metric smoothly; no test looks at the mask", "anchors": ["source/tomopy/recon/rotation.py:_create_mask"]}
{"id": "C90", "title": "find_center_pc returns the axis about which opposite projections mirror each other", "statement": "If the second projection is the first mirrored about an axis at a whole or half column, and the registration finds the shift between two images whenever there is one, find_center_pc returns that axis, without a guess or with one that is a whole number of columns from the middle.", "quantifier": "for every pair of projections, width, axis and guess that moves nothing off the detector", "why_tests_cant": "sign errors cancel for centred axes", "anchors": ["source/tomopy/recon/rotation.py:find_center_pc"]}
{"id": "C91", "title": "write_center writes one image per centre under its own name", "statement": "The file named after a centre holds the reconstruction with that centre, masked if asked; all centres of the range are there, by default twenty around the middle in half pixels; other files are left alone; no two centres share a file.", "quantifier": "for every range, reconstruction, mask flag and prior content of the directory", "why_tests_cant": "a test sees only that files exist", "anchors": ["source/tomopy/recon/rotation.py:write_center", "source/tomopy/util/misc.py:write_tiff"]}
{"id": "C92", "title": "mask_empty_slice marks the slices without structure", "statement": "A slice is marked when the spread of its summed projections is below the threshold times the spread of the column sums, both relative to their maxima; a slice without structure is marked; a larger threshold marks no fewer; order of projections and positive scale do not matter.", "quantifier": "for every volume and threshold (exact arithmetic)", "why_tests_cant": "no test calls it", "anchors": ["source/tomopy/recon/rotation.py:mask_empty_slice"]}
{"id": "C93", "title": "stripes_detect3d gives each voxel the contrast of horizontal changes around it", "statement": "Before the vertical filter a voxel gets the smaller of two ratios: mean horizontal change in the vertical plate around it against the mean change over the columns on its right and on its left. The result is an order statistic of these over the window of angles, lies in [0, 1], and depends neither on the order in which the threads work nor on what the memory held nor on scale and offset of the data.", "quantifier": "for every volume large enough for its windows, every radius, size and schedule (exact arithmetic)", "why_tests_cant": "schedules cannot be chosen in a test; a single data set cannot tell the median from a neighbour of it", "anchors": ["source/tomopy/prep/stripe.py:stripes_detect3d", "source/libtomo/prep/stripes_detect3d.c:stripesdetect3d_main_float"]}
{"id": "C94", "title": "stripes_mask3d keeps long shallow runs of low weights and merges neighbours", "statement": "The mask is what is left of the voxels at or below the threshold after the depth check, the length check and the short run check, then merged width times. Full stripes are kept, slices without candidates stay empty, a slice depends on the slices within the depth window only; no result depends on the schedule or on prior memory; invalid parameters raise ValueError.", "quantifier": "for every volume, threshold, length, depth, width, sensitivity and schedule", "why_tests_cant": "a test compares one mask; the border and percentage cases are not reached", "anchors": ["source/tomopy/prep/stripe.py:stripes_mask3d", "source/libtomo/prep/stripes_detect3d.c:stripesmask3d_main_float"]}
{"id": "C95", "title": "The rotation of the accelerated solvers turns an image about its middle, and counts say how often a cell is reached", "statement": "Nearest neighbour gives every cell the source cell closest to where it came from, or zero outside; linear is exact on planes; both keep the range and are linear; cells of the inscribed disc always come from the image; right angles can be undone. The counts are between 0 and the number of projections, equal to it in the disc, and only the image is read.", "quantifier": "for every image, angle, grid and number of projections (exact arithmetic)", "why_tests_cant": "the GPU and OpenCV builds are not run by the tests; one phantom hides a lost column", "anchors": ["source/libtomo/accel/utils.hh:cxx_rotate_ip", "source/libtomo/accel/utils.hh:cxx_compute_sum_dist"]}
{"id": "C96", "title": "Accelerated MLEM keeps images non-negative and treats slices independently", "statement": "One iteration multiplies a cell by the mean over projections and detector pixels of the slice turned, corrected by measured over simulated totals and turned back. Non-negative stays non-negative, zeros and unreached cells stay, a slice depends on its own data only, the order in which tasks finish does not matter, an image that explains the data is kept, and scaling data and image scales the result.", "quantifier": "for every volume, data, angles, number of iterations and completion order (exact arithmetic)", "why_tests_cant": "completion orders cannot be chosen in a test; reference data were made by the same code", "anchors": ["source/libtomo/accel/cxx/mlem.cc:mlem_cpu", "source/libtomo/accel/cxx/mlem.cc:mlem_cpu_compute_projection"]}
{"id": "C97", "title": "Accelerated SIRT is homogeneous and treats slices independently", "statement": "One iteration adds to a cell the mean over projections and detector pixels of the slice turned, corrected by measured minus simulated totals and turned back. Scaling data and image scales the result, unreached cells stay, a slice depends on its own data only, the completion order does not matter, an image that explains the data is kept, and an image of zeros is left.", "quantifier": "for every volume, data, angles, number of iterations and completion order (exact arithmetic)", "why_tests_cant": "completion orders cannot be chosen in a test; reference data were made by the same code", "anchors": ["source/libtomo/accel/cxx/sirt.cc:sirt_cpu", "source/libtomo/accel/cxx/sirt.cc:sirt_cpu_compute_projection"]}
{"id": "C98", "title": "The options of the accelerated solvers select what they name", "statement": "A device or interpolation is selected by its name in any case or by its number; unknown devices mean the default one; the device selected exists in the build and its solver is run; unknown interpolations are reported; the pool has the size asked for and at least one thread; a failure is reported to the caller.", "quantifier": "for every string, build, number of devices, threads and environment", "why_tests_cant": "builds and devices cannot be varied in a test run", "anchors": ["source/libtomo/accel/common.hh:GetDevice", "source/libtomo/accel/utils.hh:GetChoice", "source/libtomo/accel/data.hh:RuntimeOptions", "source/libtomo/accel/cxx/mlem.cc:cxx_mlem"]}
{"id": "C99", "title": "Tasks of the thread pool do not spoil each other's buffers", "statement": "Each task hands over the buffers it filled itself, whatever the interleaving, as long as a thread does one task after the other and the threads of the pool have consecutive numbers.", "quantifier": "for every number of tasks, slices, threads and every interleaving", "why_tests_cant": "races show up rarely", "anchors": ["source/libtomo/accel/data.hh:CpuData", "source/libtomo/accel/cxx/mlem.cc:mlem_cpu_compute_projection"]}
{"id": "C100", "title": "The sorting method removes stripes narrower than half its window completely", "statement": "If all columns of a sinogram show the same values, some of them through an increasing response, and every window has fewer than half of its columns distorted, the result shows the undistorted values in every column.", "quantifier": "for every linear order, column, set of distorted columns, responses and window size (window over columns)", "why_tests_cant": "responses and placements of stripes are unlimited; a test shows one stripe", "anchors": ["source/tomopy/prep/stripe.py:_rs_sort", "source/tomopy/prep/stripe.py:_remove_stripe_based_sorting"]}
{"id": "C101", "title": "The filtering method removes constant offsets of columns and nothing else", "statement": "The low-pass filter is a convolution whose gain falls with frequency and keeps constants. Constant offsets of columns that fill less than half of every window are removed and the other values stay.", "quantifier": "for every size, width, column, offsets and set of columns (exact arithmetic)", "why_tests_cant": "gains cannot be observed in one sinogram; a residue of a few percent passes the tolerance of the tests", "anchors": ["source/tomopy/prep/stripe.py:_rs_filter", "source/tomopy/prep/stripe.py:_remove_stripe_based_filtering"]}
{"id": "C102", "title": "The fitting method keeps the level and the scale of a sinogram", "statement": "Scaling the data scales the result; the mean stays if the fit reproduces the columns; a constant sinogram stays; a ripple across the columns is reduced by the gain of the filter at its frequency relative to the mean.", "quantifier": "for every sinogram, fit that is linear and keeps constants, size and width (exact arithmetic)", "why_tests_cant": "one sinogram is compared with stored output", "anchors": ["source/tomopy/prep/stripe.py:_rs_fit", "source/tomopy/prep/stripe.py:_2d_filter", "source/tomopy/prep/stripe.py:_create_2d_window"]}
{"id": "C103", "title": "The wavelet method damps vertical details only and removes perfect stripes from them", "statement": "With a transform that is undone by its inverse, an image without vertical details is unchanged for any number of levels. Details that are constant along the stripe are removed, waves along it are damped by 1 minus a Gaussian of their frequency. The default number of levels depends on the sinogram only.", "quantifier": "for every image, wavelet with perfect reconstruction, level, width and padding (exact arithmetic)", "why_tests_cant": "the damping of one frequency is not visible in stored output", "anchors": ["source/tomopy/prep/stripe.py:_remove_stripe_fw", "source/tomopy/prep/stripe.py:remove_stripe_fw"]}
{"id": "C104", "title": "Phase retrieval is a linear low-pass filter that keeps constant projections", "statement": "All projections are mapped independently by one linear map that multiplies every wave with a factor in (0, 1] which falls with frequency and distance and grows with alpha; constant projections are unchanged, the energy does not grow, nothing happens at distance zero, and the padding covers pi lambda z / pixel^2.", "quantifier": "for every projection, size, pixel size, distance, energy and alpha, with and without padding (exact arithmetic)", "why_tests_cant": "stored output of one projection shows neither the response to a frequency nor the dependence on parities of the sizes", "anchors": ["source/tomopy/prep/phase.py:retrieve_phase", "source/tomopy/prep/phase.py:_retrieve_phase", "source/tomopy/prep/phase.py:_calc_pad_width", "source/tomopy/prep/phase.py:_wavelength"]}
{"id": "C105", "title": "Parallel calls see the elements of an array, not its memory layout", "statement": "A parallel call gives the jobs the elements of its arrays in C order and returns the elements the jobs leave, whatever the order of the axes, offset and strides of the arguments; ordinary arrays of the caller are not changed, shared arrays are worked on in place, calls can be chained, and `out` receives the result.", "quantifier": "for every heap, array layout (offset, strides, order), number of arrays, job result and chain of calls", "why_tests_cant": "tests use C ordered arrays that own their memory", "anchors": ["source/tomopy/util/dtype.py:as_sharedmem", "source/tomopy/util/dtype.py:get_shared_mem", "source/tomopy/util/dtype.py:to_numpy_array", "source/tomopy/util/mproc.py:distribute_jobs", "source/tomopy/util/mproc.py:_arg_parser"]}
{"id": "C106", "title": "C routines receive the elements of an array, not its memory layout", "statement": "The pointers given to the C library show it the elements of the arguments (converted to 32 bit floats) in C order, and what it writes reaches the result at the same places, whatever the layout of the arguments of the caller, who finds these unchanged.", "quantifier": "for every heap, array layout, conversion and C routine (function from elements to elements)", "why_tests_cant": "tests use C ordered arrays that own their memory", "anchors": ["source/tomopy/recon/algorithm.py:init_tomo", "source/tomopy/recon/algorithm.py:_get_algorithm_args", "source/tomopy/sim/project.py:project2", "source/tomopy/sim/project.py:project3", "source/tomopy/sim/project.py:get_center", "source/tomopy/misc/corr.py:median_filter3d", "source/tomopy/misc/corr.py:remove_ring", "source/tomopy/misc/corr.py:inpainter_morph", "source/tomopy/prep/stripe.py:stripes_detect3d", "source/tomopy/util/extern/prep.py:c_remove_stripe_sf", "source/tomopy/util/extern/recon.py:c_project"]}
{"id": "C107", "title": "The ASTRA wrapper gives every slice its own sinogram, centred, and splits the slices over the GPUs", "statement": "For a CPU projector the sinogram is moved by a whole number of columns that puts the axis within half a column of the middle, zero where nothing was measured. Every slice is reconstructed once from its own sinogram, centre and start, by a GPU of the list if one is given. Options of the caller win over defaults and 'method' is required.", "quantifier": "for every sinogram, centre, list of GPUs, number of slices and CPUs, and every ASTRA algorithm (function of sinogram, centre and start that may fail)", "why_tests_cant": "ASTRA is not installed in the tests; none uses several GPUs, and failures in threads are not seen", "anchors": ["source/tomopy/recon/wrappers.py:astra", "source/tomopy/recon/wrappers.py:astra_rec", "source/tomopy/util/mproc.py:get_ncore_slices"]}
{"id": "C108", "title": "The lprec wrapper gives each GPU to one batch at a time and returns all batches in order", "statement": "The batches are the slices in order, none empty and none over the memory limit. In every interleaving of the threads no two batches are on one GPU, a thread that starts always finds a free GPU, the call ends after five steps per batch, and the result is the concatenation of what the method makes of the batches.", "quantifier": "for every number of GPUs, slices and columns up to 4096, and every interleaving of the threads", "why_tests_cant": "races over the list of busy GPUs show up under rare interleavings only; lprec needs GPUs", "anchors": ["source/tomopy/recon/wrappers.py:lprec", "source/tomopy/recon/wrappers.py:lpmultigpu"]}
{"id": "C109", "title": "The UFO wrapper copies the middle of UFO's image and passes on evenly spaced angles", "statement": "The slice is the middle of the image of UFO, the margins differ by at most one pixel; a grid of another size is refused; for evenly spaced angles the angles between projections are right.", "quantifier": "for every size of the image and of the detector, grid and angles", "why_tests_cant": "UFO is not installed in the tests, parities of sizes are not covered", "anchors": ["source/tomopy/recon/wrappers.py:_process_data", "source/tomopy/recon/wrappers.py:ufo_fbp", "source/tomopy/recon/wrappers.py:ufo_dfi"]}
{"id": "C110", "title": "recon_accelerated calls the function of the user or the package with the known name, and else raises ValueError", "statement": "A callable is used as it is, no name or 'tomoperi' means tomopy_peri's function if the package is installed, and everything else raises ValueError.", "quantifier": "for every implementation argument, with and without the package", "why_tests_cant": "the package is not installed in the tests", "anchors": ["source/tomopy/recon/acceleration.py:recon_accelerated", "source/tomopy/recon/acceleration.py:_search_implementation", "source/tomopy/recon/acceleration.py:_get_func"]}
{"id": "C111", "title": "The CUDA kernels visit every cell once and sum without loss", "statement": "For every grid and block the grid-stride loops visit every index exactly once, and the automatic grid has a thread for every index and no superfluous block. In any order of the threads the pixels kernels correct every ray from the image they find (MLEM like the kernel for the host), the update kernels change every counted cell once, concurrent atomic additions lose nothing, and for square images the counting kernel counts the projections that reach a cell.", "quantifier": "for every size, grid, block and order of the threads and of the atomic operations, and every contents of uninitialised buffers", "why_tests_cant": "the order of the threads of a GPU cannot be controlled; the tests run without one and compare images with a tolerance", "anchors": ["source/libtomo/accel/gpu/utils.cu:cuda_sum_dist_compute", "source/libtomo/accel/gpu/mlem.cu:cuda_mlem_pixels_kernel", "source/libtomo/accel/gpu/sirt.cu:cuda_sirt_pixels_kernel", "source/libtomo/accel/gpu/utils.cu:cuda_compute_sum_dist"]}
{"id": "C112", "title": "The solvers on the GPU return the image of the iteration whatever the streams do", "statement": "With any number of workers, any distribution of projections and any interleaving of host threads and streams every finished run of a debug build returns the image of the iterations told sequentially, whatever the buffers contain at the start; a run never gets stuck and ends. MLEM then equals the version for the host if rotation and counts are the same. In a release build this needs the reset of the sum to run before the operations of the workers, which nothing ensures.", "quantifier": "for every size, number of workers and iterations, data, angles and every execution of the system of host threads and streams", "why_tests_cant": "the order of operations of different streams depends on the device; the tests run without one", "anchors": ["source/libtomo/accel/gpu/mlem.cu:mlem_cuda", "source/libtomo/accel/gpu/mlem.cu:mlem_gpu_compute_projection", "source/libtomo/accel/gpu/sirt.cu:sirt_cuda", "source/libtomo/accel/gpu/sirt.cu:sirt_gpu_compute_projection"]}
{"id": "C113", "title": "Rotations on the GPU run in the stream of the caller", "statement": "At most one thread has the lock around NPP's stream, it rotates in its own stream and never throws, and the lock is free when no thread is rotating; threads that share a stream always rotate in it.", "quantifier": "for every number of threads, streams and interleaving of the steps of all threads", "why_tests_cant": "needs a GPU with several workers and a rare interleaving", "anchors": ["source/libtomo/accel/gpu/utils.cu:cuda_rotate_kernel"]}
{"id": "C114", "title": "Every parameter of the C functions gets the value its name means", "statement": "A call of a C function through the wrappers of util/extern has one argument for each parameter of the C prototype, of its type, and carries the array, size or option that the parameter's name means; integers arrive unchanged if they fit into int.", "quantifier": "for every algorithm and wrapper, arrays of any shape and every dictionary of options", "why_tests_cant": "swapped arguments of equal type give plausible images; the tests use equal sizes and default options", "anchors": ["source/tomopy/util/extern/recon.py:c_art", "source/tomopy/util/extern/recon.py:c_tikh", "source/tomopy/util/extern/gridrec.py:c_gridrec", "source/tomopy/util/extern/prep.py:c_normalize_bg", "source/tomopy/util/extern/recon.py:c_vector", "include/libtomo/recon.h:art", "source/tomopy/util/dtype.py:as_c_float_p"]}
{"id": "C115", "title": "The C routines touch only the cells that their size parameters announce", "statement": "The result of each solver, of project and of normalize_bg depends only on the first cells of each array, as many as its size parameters say, and no cell outside is changed.", "quantifier": "for every size, angle, centre, number of iterations and contents of the memory outside", "why_tests_cant": "reading or writing a few cells behind an array is rarely visible", "anchors": ["source/libtomo/recon/art.c:art", "source/libtomo/recon/bart.c:bart", "source/libtomo/recon/osem.c:osem", "source/libtomo/recon/tikh.c:tikh", "source/libtomo/recon/grad.c:grad", "source/libtomo/recon/tv.c:tv", "source/libtomo/gridrec/gridrec.c:gridrec", "source/libtomo/recon/project.c:project"]}
{"id": "C116", "title": "recon gives the C routines arrays that are long enough and of the right element type", "statement": "If the options have the shapes that the documentation asks for, every array that a chunk of recon hands to a C function has at least as many elements as the function touches and the element type of its parameter.", "quantifier": "for every algorithm, size of data and grid, chunk of slices and dictionary of options", "why_tests_cant": "memory behind an array is usually mapped, overruns do not crash in the tests", "anchors": ["source/tomopy/recon/algorithm.py:recon", "source/tomopy/recon/algorithm.py:_init_recon", "source/tomopy/recon/algorithm.py:_get_algorithm_kwargs", "source/tomopy/recon/algorithm.py:_dist_recon"]}
{"id": "C117", "title": "The drift correction fits the affine map of the slit corners", "statement": "calc_affine_transform returns the affine map that moves the marks if there is one and they are not on a line; otherwise the errors cancel, alone and weighted with the place; the solution is unique. Applied to images moved by whole pixels the correction must give back the scene (refuted: the inverse map with swapped axes is applied).", "quantifier": "for every list of marks, affine map and image", "why_tests_cant": "the tests compare the fitted matrix for one set of corners and do not look at the corrected images", "anchors": ["source/tomopy/misc/npmath.py:calc_affine_transform", "source/tomopy/prep/alignment.py:detector_drift_adjust_aps_1id"]}
{"id": "C118", "title": "gauss1d has its peak at mu; discrete_cdf draws the stairs of the sorted data", "statement": "The Gaussian has its largest size at mu, is symmetric and falls. discrete_cdf returns each sorted value (or each k-th one, at most as many as asked for) twice, with heights i/(n-1) and (i+1)/(n-1), where i is the rank. A distribution function should end at 1 (refuted).", "quantifier": "for every list of numbers, number of steps and parameter of the Gaussian", "why_tests_cant": "the tests use a few numbers and compare with the output of the code", "anchors": ["source/tomopy/misc/npmath.py:gauss1d", "source/tomopy/misc/npmath.py:discrete_cdf"]}
{"id": "C119", "title": "enhance_projs_aps_1id weights each pixel by its rank and normalises each image to 1", "statement": "The weight of a pixel is the share of darker pixels including itself, it does not change if the grey values are recoded in the same order; the result is between 0 and 1 and reaches 1, keeps the order of pixels that are brighter in the image and in the filtered image, and does not depend on the exposure. Black images give NaN, negative values are reversed (refuted).", "quantifier": "for every stack of images, every median filter and every strictly increasing recoding of grey values", "why_tests_cant": "the test compares one image with stored values", "anchors": ["source/tomopy/misc/corr.py:enhance_projs_aps_1id", "source/tomopy/misc/corr.py:_enhance_img", "source/tomopy/misc/corr.py:_calc_histequal_wgt"]}
{"id": "C120", "title": "In single precision ray tracing stays in the grid and in its buffers", "statement": "preprocessing, calc_coords, trim_coords, sort_intersections and calc_dist in IEEE binary32: the grid lines are exact; the points kept lie in the grid, exactly those inside the margins are kept, in order of x if the quadrant agrees with the direction; every segment has a pixel of the grid and a finite length >= 0, also with infinities and NaN among the coordinates; a ray of a solver has at most ngridx+ngridy points, the size of the buffers; kept points are within 0.0062 of the exact line. Refuted for grids of 2^20 columns: pixel behind the last.", "quantifier": "for every grid up to 2^15 (buffers: 2^13) in each direction, every ray, sine and cosine in [-1, 1], centre up to 8000, content of the buffers", "why_tests_cant": "an overrun by one element needs a ray through a corner up to rounding; sanitizers see only the rays that were tried", "anchors": ["source/libtomo/recon/utils.c:preprocessing", "source/libtomo/recon/utils.c:calc_coords", "source/libtomo/recon/utils.c:trim_coords", "source/libtomo/recon/utils.c:sort_intersections", "source/libtomo/recon/utils.c:calc_dist", "source/libtomo/recon/art.c:art"]}
{"id": "C121", "title": "In machine arithmetic the iterative solvers have no undefined behaviour", "statement": "project, fbp, art, bart (sirt) and osem (mlem) with IEEE binary32 numbers, 32 bit ints and arrays with bounds: every access is inside its array, every conversion to int fits and no index overflows, whatever numbers (also infinities and NaN) the arrays hold. Refuted for num_block = 0 (division by zero) and for an angle that is NaN or infinite (conversion to int).", "quantifier": "for all data, images, iterations, blocks, permutations of angles and contents of scratch memory; grids up to 2^15 (project) or 2^13, data below 2^31 elements", "why_tests_cant": "overruns depend on rounding at a few rays and angles and are not visible when they happen", "anchors": ["source/libtomo/recon/project.c:project", "source/libtomo/recon/fbp.c:fbp", "source/libtomo/recon/art.c:art", "source/libtomo/recon/bart.c:bart", "source/libtomo/recon/osem.c:osem", "source/libtomo/recon/utils.c:calc_simdata"]}
{"id": "C122", "title": "calc_quadrant returns the quadrant and the points of every ray come in order, in machine arithmetic", "statement": "For every angle in the range of fmodf calc_quadrant returns 1 exactly in the first and third quadrant, except for angles just below zero (refuted); with sine and cosine accurate to 1/1000 the intersections of every ray of a solver are sorted along x, also for these angles.", "quantifier": "for every binary32 angle, grid and detector up to 2^13, centre up to 8000 and detector pixel", "why_tests_cant": "the border between quadrants is an integer comparison after two roundings; the tests use a few angles", "anchors": ["source/libtomo/recon/utils.c:calc_quadrant", "source/libtomo/recon/utils.c:sort_intersections", "source/libtomo/recon/art.c:art"]}
{"id": "C123", "title": "In machine arithmetic slices are independent, bit for bit, of other slices and of scratch memory", "statement": "A slice of the result of project, fbp, art, bart and osem has the same bits in two calls if this slice had the same data, image and centre (project and art: the first slice's centre), whatever the other slices, their number, the contents of simdata, sum_dist, update and of the buffers of the ray tracing.", "quantifier": "for all pairs of calls, slices and inputs", "why_tests_cant": "rounding makes results of different chunkings comparable only up to a tolerance in tests; uninitialised memory is usually zero", "anchors": ["source/libtomo/recon/project.c:project", "source/libtomo/recon/fbp.c:fbp", "source/libtomo/recon/art.c:art", "source/libtomo/recon/bart.c:bart", "source/libtomo/recon/osem.c:osem"]}
{"id": "C124", "title": "In machine arithmetic osem, mlem, fbp and project keep the sign", "statement": "From values that are not negative (+0, positive, +infinity, NaN) these functions make only such values, with rounding, overflow and division by zero; under osem a cell that is zero stays zero or becomes NaN and a NaN stays. That zeros never become NaN is refuted.", "quantifier": "for all inputs, angles and sizes, without bounds", "why_tests_cant": "overflow and 0/0 need special images", "anchors": ["source/libtomo/recon/osem.c:osem", "source/libtomo/recon/fbp.c:fbp", "source/libtomo/recon/project.c:project"]}
{"id": "C125", "title": "In machine arithmetic project and fbp compute the sums over the rays, with a bounded error", "statement": "A measurement after project is the value before plus the products of pixels and lengths on the ray, added in the order of the segments, with each operation rounded once, and nothing else; a pixel after fbp likewise over all angles and rays that meet it. If the sum of magnitudes S is at most 2^120 the result is finite and differs from the exact sum of n products by at most (n+1)/2^23 * S + n/2^148.", "quantifier": "for all images, data, angles and grids up to 2^15; at most 10^6 terms for the bound of fbp", "why_tests_cant": "tests compare with stored values up to a tolerance that hides a lost term", "anchors": ["source/libtomo/recon/project.c:project", "source/libtomo/recon/fbp.c:fbp", "source/libtomo/recon/utils.c:calc_simdata"]}
{"id": "C126", "title": "In machine arithmetic the penalised solvers have no undefined behaviour", "statement": "ospml_hybrid and ospml_quad (pml_hybrid, pml_quad) with IEEE binary32/64 numbers, 32 bit ints and arrays with bounds: every access is inside its array and no index overflows, whatever numbers the arrays hold, on grids of at least two rows and columns. Refuted for a grid of one row (reads in front of the image) and for num_block = 0.", "quantifier": "for all data, images, regularisation parameters, iterations, blocks and permutations of angles; grids 2 to 2^13", "why_tests_cant": "reads just outside an array are silent; tests use one grid size", "anchors": ["source/libtomo/recon/ospml_hybrid.c:ospml_hybrid", "source/libtomo/recon/ospml_quad.c:ospml_quad"]}
{"id": "C127", "title": "In machine arithmetic slices of the penalised solvers are independent, bit for bit", "statement": "A slice of the result of ospml_hybrid and ospml_quad has the same bits in two calls if this slice had the same data, image and centre and beta (hybrid: and delta) are the same, whatever the other slices and their number.", "quantifier": "for all pairs of calls, slices and inputs", "why_tests_cant": "rounding makes results of different chunkings comparable only up to a tolerance in tests", "anchors": ["source/libtomo/recon/ospml_hybrid.c:ospml_hybrid", "source/libtomo/recon/ospml_quad.c:ospml_quad"]}
{"id": "C128", "title": "In machine arithmetic a pass of a penalised solver gives each pixel the root of its own quadratic", "statement": "With one subset each pass replaces every pixel by (-G + sqrt(G*G - 8*E*F)) / (4*F), bit for bit: E from the rays that meet the pixel, F and G from its 3, 5 or 8 neighbours in the grid with weights 1/t and 1/(sqrt 2 t), G with the sum of the lengths; all read from the image before the pass.", "quantifier": "for all numbers of iterations, images, data, parameters, angles and grids up to 2^15", "why_tests_cant": "tests compare with stored values up to a tolerance that hides a neighbour lost at a border", "anchors": ["source/libtomo/recon/ospml_hybrid.c:ospml_hybrid", "source/libtomo/recon/ospml_quad.c:ospml_quad"]}
{"id": "C129", "title": "In machine arithmetic the penalised solvers take no root of a negative number and leave the positive numbers only by rounding", "statement": "From an image and data without negative values: E is never positive and the discriminant never negative; after one pass every pixel is NaN or at least -tol, for ospml_quad with tol = (sum of lengths in the pixel * 2^-22 + 2^-73) / beta. That pixels stay non-negative is refuted: a pass over zero data makes all pixels negative (-1.5e-8).", "quantifier": "for all non-negative images and data, angles and grids; beta in [2^-60, 2^60] for the bound of ospml_quad; the bound covers one pass", "why_tests_cant": "the sign of a rounding error in sqrt(G*G) - G depends on the last bits of the parameters", "anchors": ["source/libtomo/recon/ospml_hybrid.c:ospml_hybrid", "source/libtomo/recon/ospml_quad.c:ospml_quad"]}
{"id": "C130", "title": "In machine arithmetic grad, tikh and tv have no undefined behaviour", "statement": "grad, tikh and tv with IEEE binary32/64 numbers, 32 bit ints and arrays with bounds: every access is inside its array and no index overflows, whatever numbers the arrays hold, if reg_pars has 1 (tikh: 2) entries and reg_data has the size of the image. Refuted for shorter reg_pars and reg_data.", "quantifier": "for all data, images, parameters, iterations, angles and grids within the sizes of C121", "why_tests_cant": "reads just outside an array are silent; tests use one grid size", "anchors": ["source/libtomo/recon/grad.c:grad", "source/libtomo/recon/tikh.c:tikh", "source/libtomo/recon/tv.c:tv"]}
{"id": "C131", "title": "In machine arithmetic slices of grad, tikh and tv are independent, bit for bit", "statement": "A slice of the result of grad, tikh and tv has the same bits in two calls if this slice had the same data, image, centre, prior and parameters, whatever the other slices, their number and the initial contents of the uninitialised array lambda and of the buffers of the ray tracing.", "quantifier": "for all pairs of calls, slices and inputs", "why_tests_cant": "rounding makes results of different chunkings comparable only up to a tolerance in tests; uninitialised memory is usually zero", "anchors": ["source/libtomo/recon/grad.c:grad", "source/libtomo/recon/tikh.c:tikh", "source/libtomo/recon/tv.c:tv"]}
{"id": "C132", "title": "In machine arithmetic grad, tikh and tv compute, bit for bit, gradient descent and the primal-dual iteration of a slice", "statement": "Each iteration of grad subtracts the step times 2 r R'(r R x - b) (tikh: plus 2 alpha (x - prior)), where the step is reg_pars[0], or if that is negative 1e-3 and then Barzilai and Borwein's quotient over the slice; tv ascends the dual variables by 0.35 times forward differences, divides them by max(1, norm / lambda), descends the image by the back projection and the divergence and over-relaxes. Equal to a specification per pixel with each operation rounded once; r is sqrt(2/(dx*dt)) up to a relative error of 2^-23.", "quantifier": "for all numbers of iterations, images, data, parameters, angles and grids up to 2^15", "why_tests_cant": "tests compare with stored values up to a tolerance that hides terms lost at a border", "anchors": ["source/libtomo/recon/grad.c:grad", "source/libtomo/recon/tikh.c:tikh", "source/libtomo/recon/tv.c:tv"]}
{"id": "C133", "title": "In machine arithmetic a blank slice stays blank under grad, tikh and tv, except for 0/0 in the step", "statement": "Data and image of zeros (of either sign) stay zeros under grad and tikh (with a blank prior) with a non-negative step, under one iteration with a negative one and under tv with lambda other than 0. With a negative reg_pars[0] and two or more iterations every pixel of such a slice becomes NaN; with lambda = 0 tv makes every pixel of a constant image NaN, except in the last row and column, whatever was measured.", "quantifier": "for all geometries, numbers of iterations and parameters", "why_tests_cant": "a blank slice in a test volume is rare and NaN in it is easily overlooked", "anchors": ["source/libtomo/recon/grad.c:grad", "source/libtomo/recon/tikh.c:tikh", "source/libtomo/recon/tv.c:tv"]}
{"id": "C134", "title": "In machine arithmetic normalize_bg and remove_stripe_sf have no undefined behaviour", "statement": "normalize_bg and remove_stripe_sf with IEEE binary32 numbers, 32 bit ints and an array of dx * dy * dz cells: every access is inside the array and no index overflows, whatever numbers it holds, if nair <= dz and istart .. iend is a range of slices. With more air pixels than columns normalize_bg always reads outside.", "quantifier": "for all arrays of less than 2^31 cells, numbers of air pixels and windows", "why_tests_cant": "reads just outside an array are silent", "anchors": ["source/libtomo/prep/prep.c:normalize_bg", "source/libtomo/prep/stripe.c:remove_stripe_sf"]}
{"id": "C135", "title": "In machine arithmetic normalize_bg divides by the line through the two air levels of the row", "statement": "Each pixel becomes, bit for bit, the quotient by left + (right - left) / (dz - 1) * j, where the levels are the means of the air pixels of its own row before the call (one if not positive). With all values of the row between lo and hi the relative error against exact arithmetic is at most (12 nair + 40) 2^-24 hi / lo. Refuted without that bound: a small right level is lost by cancellation and the pixel becomes infinite. With one column or no air pixel every result is NaN.", "quantifier": "for all stacks, rows and pixels; the error bound for rows with (12 nair + 40) hi <= 2^24 lo", "why_tests_cant": "cancellation shows only for large ratios of the two levels; tests use one sinogram", "anchors": ["source/libtomo/prep/prep.c:normalize_bg", "source/tomopy/prep/normalize.py:normalize_bg"]}
{"id": "C136", "title": "In machine arithmetic remove_stripe_sf subtracts the deviation of the column average from its neighbourhood", "statement": "In the chosen slices each pixel becomes, bit for bit, the pixel minus (average of its column - average of the column averages in the window, repeated at the edges), from the values before the call; other slices keep their bits. For finite values up to hi the error is at most (6 dx + 3 size + 30) 2^-24 hi. A window of one pixel changes no value; a window of no pixel makes every pixel of the slices NaN.", "quantifier": "for all stacks, slices, windows and pixels; the error bound for up to 10^6 projections and window pixels", "why_tests_cant": "tests compare with a stored array up to a tolerance", "anchors": ["source/libtomo/prep/stripe.c:remove_stripe_sf", "source/tomopy/prep/stripe.py:remove_stripe_sf"]}
{"id": "C137", "title": "vector, project2 and project3 have no undefined behaviour in machine arithmetic", "statement": "For any numbers in the arrays vector, project2 and project3 access only elements inside their arrays, convert only floats that fit an int and overflow no index; project3 needs axis 0 or a cube. Refuted otherwise: project3 along axis 1 reads beyond the end of an object that is no cube, and the wrapper passes any object.", "quantifier": "for all geometries in the stated sizes, all float contents, all numbers of iterations", "why_tests_cant": "out of bounds reads rarely crash; tests use cubes", "anchors": ["source/libtomo/recon/vector.c:vector", "source/libtomo/recon/project.c:project2", "source/libtomo/recon/project.c:project3", "source/libtomo/recon/utils.c:calc_dist2", "source/libtomo/recon/utils.c:calc_simdata3"]}
{"id": "C138", "title": "A pass of vector in machine arithmetic adds the mean correction of the rays", "statement": "After one pass of vector each component of each pixel of each slice is, bit for bit, the old value plus the sum of the corrections of the rays through it (in the order of angles and detector pixels) over the sum of their lengths, from the field before the pass and the data and centre of that slice only; more passes compose, and for any number of passes a slice depends on nothing in the other slices. Refuted: a pixel that no ray meets keeps its value; it becomes NaN in both components.", "quantifier": "for all fields, data, slices and pixels, any number of iterations", "why_tests_cant": "tests compare a stored array within a tolerance, for one phantom", "anchors": ["source/libtomo/recon/vector.c:vector", "source/tomopy/recon/vector.py:vector"]}
{"id": "C139", "title": "project2 and project3 in machine arithmetic add the field along each ray", "statement": "Every element of the data becomes, bit for bit, its old value plus the sum over the pixels of its ray of (component * direction + component * direction) * length, with the components and the voxels that belong to the axis; the rays are those of project, all with the first centre, and the direction of a ray is within 5 2^-24 per component of the unit vector from detector to source. For finite fields the result of project2 is within (n + 3) 2^-23 of the exact sum, relative to the sum of the sizes of the n terms. Another axis leaves the data as they are, without an error.", "quantifier": "for all objects, data, axes and elements", "why_tests_cant": "tests compare one stored array within a tolerance", "anchors": ["source/libtomo/recon/project.c:project2", "source/libtomo/recon/project.c:project3", "source/libtomo/recon/utils.c:calc_simdata2", "source/libtomo/recon/utils.c:calc_simdata3", "source/tomopy/sim/project.py:project3"]}
