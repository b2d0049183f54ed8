# A formal model of tomopy's computational core

`/repo` is only read.  Everything below is a hand-written model in Rocq (Coq 8.16.1)
under `rocq/theories`.  Every model definition cites the file and lines it models.

## Layout

* `Model_*.v`   – executable or mathematical model of the code, no proofs of properties.
* `Spec.v`, `Spec_*.v`, `Order.v` – vocabulary of the statements, independent of the models.
* `Proofs_*.v`  – lemmas.
* `Properties_*.v` – the property theorems (named after the property in `properties.jsonl`), followed by
  `Print Assumptions`, with an `Example` showing that the hypotheses are met.
* Theorems ending in `_partial` prove a property under a restriction that is stated there; theorems ending
  in `_refuted` give a witness against the property as stated.

## Modelling conventions

* Python exceptions are values (`inl err` / `Raise`), never silently totalised.
* Indices and sizes are `nat` or `Z`; nothing is bounded.
* Code whose correctness is about *values* of floats (NaN, infinities, comparisons)
  is modelled on the IEEE type of the standard library (`SpecFloat`), code whose
  correctness is about *order* is modelled over any strict weak order, code whose
  correctness is about *algebra* is modelled in exact arithmetic (`R`, `Q` or `Z`).
  Rounding of arithmetic is not modelled unless stated.
* C arrays are total functions on `Z`; a read outside the array is a read of an arbitrary value, and that none
  happens is a separate theorem (the result does not depend on values outside).
* Division by zero in the solvers is `None` (stands for NaN/inf) and propagates.
* Concurrency is modelled as the set of all interleavings of the jobs' atomic reads and writes.
* External libraries (numpy slicing/broadcasting, scipy filters, FFT, pool) are modelled
  by their documented behaviour or taken as a parameter; the list is in "Trusted base".

## What is modelled, property by property

| id | what is modelled | how it is proved |
|----|------------------|------------------|
| C01 | `get_ncore_slices`, `get_ncore_nchunk` over Z with numpy slice clipping | closed form of each slice, induction on the number of chunks |
| C02 | same | arithmetic of div/mod |
| C03 | `get_worker_ncore_slices` | closed form, telescoping |
| C04 | jobs = lists of element writes computed from an input snapshot; interleavings as an inductive relation | commutation of writes to disjoint cells |
| C05, C44 | the submit / collect / run-on-host loop as a state machine | induction over the queue; refutation for the single-core path |
| C06 | the validation prefix of `recon` and the shared keyword table as a state machine over call histories | invariant: set of accepted words unchanged |
| C07, C41, C42 | `_dist_recon` slicing and pool as interleaving | reuse of C01/C04; refutations |
| C08, C45 | environment as partial map, `_dist_recon` and `set_numexpr_threads` with a raise at any point | case analysis; refutation for the raising path |
| C09, C47 | `_normalize` elementwise, reals and binary32 | reals; `ln`/`exp`; Flocq for rounding |
| C10, C52 | `normalize_nf` range computation | induction over the flat locations |
| C11 | `normalize_bg` loops | reals, induction over the row |
| C12, C46 | `adjust_range` on SpecFloat | case analysis on IEEE comparison |
| C13 | `remove_nan`, `remove_neg` on SpecFloat | same |
| C14, C48 | `median_filter_nonfinite` with in-place update order | induction over the scan order |
| C15, C50 | `median_filt3d.c`: window gathering, sort, middle element | order-theoretic characterisation of the median |
| C16, C49 | `remove_outlier`, pools | pointwise |
| C17 | `_get_mask`, `circ_mask` | geometry |
| C18 | `pad` | list model over an arbitrary axis |
| C19, C54 | flat index loops of `morph.c` | div/mod closed form; refutation for non multiples |
| C20, C55 | `sino_360_to_180` | reals, weights `linspace` |
| C21 | `calc_coords`, `trim_coords`, `calc_dist` | reals, monotone sequences |
| C22 | `sort_intersections` | merge invariant |
| C23, C56 | `calc_simdata`, `project`, back projection of `fbp` | finite sums, adjointness |
| C24 | `art` loops | Kaczmarz identity, distance to a solution |
| C25, C57 | `bart`, `sirt` loops | invariant, weighted distance |
| C26 | `osem`, `mlem` loops | invariant, exchange of finite sums |
| C27, C58 | subset index computation | div/mod |
| C28, C59 | `ospml_quad`, `ospml_hybrid`, `pml_*` | reals, quadratic formula, surrogate minimisation |
| C29 | pairing loop of `gridrec` with the numerics as a parameter | refutation + partial |
| C30 | quicksort/bubble/rolling median of `remove_ring.c` | permutation + sortedness invariants |
| C31 | rolling mean of `remove_ring.c` | sum invariant |
| C43 | negative core and chunk counts | refutation |
| C51, C53 | averaging argument of `normalize`, `normalize_nf` | refutation; case analysis |
| C60–C62 | `ring_filter`, polar transforms, `remove_ring` | composition of C30/C31; bounds on the rounded coordinates |
| C32, C63 | `inpainter.c` sweeps with the schedule of a sweep as a parameter, `inpainter_morph` slicing | convex combinations, induction over sweeps; refutations |
| C33, C64 | padding buffer, pad width, reciprocal grid and filter of `phase.py`; the Fourier transforms are a parameter | case analysis on the border; log2; refutations |
| C34 | `_rs_sort`, `median_filter` (reflect) | permutations, domination of order statistics; refutation |
| C35 | `remove_stripe_sf` of `stripe.c` | disjoint loop regions, closed form |
| C36, C65, C66 | `_remove_stripe_ti` and helpers | conjugate gradient invariant (residual), convexity; refutations |
| C65, C67 | `_detect_stripe`, `_rs_large`, `_rs_dead`, `_rs_interpolation`, `_rs_filter`, `_remove_all_stripe` | order statistics of sorted lists, masks; `polyfit`, `uniform_filter1d` and the low-pass filter are parameters |
| C66 | `_ringCGM` | conjugacy invariant and Bessel's inequality: ends within as many iterations as pixels |
| C37 | `misc/phantom.py`: `phantom`, `_ellipsoid`, `_transform`, `shepp3d` | Euler rotations, folds as sums, Cauchy-Schwarz for the border; refutations |
| C39, C68 | `sim/propagate.py` | loop invariant of the trimming loop, algebra; refutations |
| C38 | `detector_drift_adjust_aps_1id` with detections as a parameter | loop invariant over the 225 kernels; refutation |
| C40 | `_unwarp_image_backward`, `distortion_correction_*`, `load_distortion_coefs` | bilinear interpolation on a block of rows; convexity |
| C69, C70 | quadrants, slit box, `scale`, `blur_edges`, `align_seq`, `align_joint`, `shift_images` | case analysis, extreme values; refutations |
| C71, C72 | `grad.c`, `tikh.c` | refinement of the loops to gradient steps; descent lemma, telescoping rate, Schur bound; refutations |
| C73 | `tv.c` | refinement of the loops to the primal-dual iteration of Chambolle and Pock; Lyapunov function, duality; refutations |
| C74–C76 | `gridrec.c` with the FFT as the sum it computes | refinement of the loops to a closed sum over projections and frequencies; Hermitian symmetry, geometric sums; refutations |
| C77, C78 | `legendre`, `set_pswf_tables`, `filters.h` | refinement to Legendre polynomials, table evaluated in rationals inside the kernel, real analysis; refutations |
| C79–C81 | `sim/project.py`: `project`, `angles`, `get_center`, `_round_to_even` | mirrored ray traces, rays along the axes in closed form, permutations of chunks; refutations |
| C82–C84 | `project2`, `project3`, `vector.c` | refinement of the loops to steps on planes; Cauchy-Schwarz; simulation relation for NaN; refutations |
| C85 | noise functions of `sim/project.py` | index arithmetic; refutations |
| C86 | `find_center` objective with the reconstruction as a parameter | histogram counting, concavity of the entropy; refutations |
| C87–C89 | `find_center_vo`: `_calculate_metric`, both searches, `_create_mask` | DFT as a sum, periodicity and reflection; case analysis of slices; refutations |
| C90–C92 | `find_center_pc`, `write_center`, `mask_empty_slice` | uniqueness of shifts, rounding, scaling of deviations; refutations |
| C93–C94 | `stripes_detect3d`, `stripes_mask3d` and `stripes_detect3d.c`, any schedule of the parallel loops | own-cell writes commute; closed form of each pass; counting in windows; binary32 percentages; refutations |
| C95–C97 | `accel/cxx/mlem.cc`, `sirt.cc`, `utils.hh`, `data.hh` (OpenCV path) | closed form of an iteration for any order of the tasks; invariants; rotation geometry; refutations |
| C98 | option handling of the accelerated solvers (`common.hh`, `utils.hh`, `data.hh`) | string case folding, case analysis of builds; refutations |
| C99 | the thread pool and its shared buffers | invariant over all schedules; refutation |
| C100 | `_rs_sort` on stripes | uniqueness of sorted lists, majority of a window is its median; refutation at the border |
| C101–C102 | `_rs_filter`, `_2d_filter`, `_rs_fit` with the transforms as sums | orthogonality of the roots of unity, kernel form, gains; refutations |
| C103 | `remove_stripe_fw` with the wavelet as a parameter, 'haar' as an instance | induction over the levels, gains; refutations |
| C104 | `retrieve_phase` with the transforms as sums | orthogonality of waves in two dimensions, Parseval, inversion; refutations |
| C105 | memory layout in `dtype.py` and `distribute_jobs` (heap of buffers, strided views) | invariants over heaps and chains of calls; refutations |
| C106 | memory layout in front of the C routines (`init_tomo`, `project2/3`, C filters) | the same heap; refutations |
| C107 | ASTRA wrapper in `recon/wrappers.py` (shift of the sinogram, slices over GPUs, options) | case analysis, induction over jobs, C01; refutations |
| C108 | `lprec`, `lpmultigpu` as a transition system (pool, lock, list of busy GPUs, collecting loop) | invariant over all interleavings, measure, refinement to the sequential result; refutations |
| C109 | UFO wrapper (crop, angles) | arithmetic; refutations |
| C110 | `recon_accelerated` | case analysis |
| C111 | CUDA kernels (grid-stride loops, pixels, update, atomic sums, counts) | permutations, rows in any order; refutation |
| C112 | `mlem_cuda`, `sirt_cuda` as a transition system of host threads, streams and device memory | invariant over all executions, measure, refinement to the host version; refutations by constructed executions |
| C113 | lock around NPP's stream in `cuda_rotate_kernel` | invariant over all interleavings; refutations |
| C114 | `util/extern/*.py`, `dtype.py` conversions, prototypes of the C headers | case analysis over wrappers and parameters; refutations |
| C115 | solvers, `project`, `normalize_bg` on arrays with cells outside | noninterference of loops (two runs that agree on the announced cells); refutations |
| C116 | `recon` up to the calls (defaults, conversions, new image, slicing of chunks) | binding (C114) and sizes; refutations |
| C117 | `calc_affine_transform`, end of `detector_drift_adjust_aps_1id` | normal equations by a quadratic in the step; existence by projection; refutation |
| C118 | `gauss1d`, `discrete_cdf` | rank of sorted lists; refutations |
| C119 | `enhance_projs_aps_1id`, `_enhance_img`, `_calc_histequal_wgt` | rank, maximum; refutations |
| C120 | `utils.c` (ray tracing) in IEEE binary32 | Flocq: exact grid, rounding errors against the margin of 0.01, counting of kept points; refutation |
| C121 | `project.c`, `fbp.c`, `art.c`, `bart.c`, `osem.c` in machine arithmetic | option monad for undefined behaviour, bounds of indices, C120; refutations |
| C122 | `calc_quadrant`, order of intersections in IEEE arithmetic | bounds of pi, gaps between floats and multiples of pi/2, sign of the slope by monotone rounding, almost horizontal rays; refutation |
| C123 | same solvers: slices and scratch memory | relational invariants of pairs of runs |
| C124 | same solvers: signs | sign bits of IEEE operations; refutation |
| C125 | `project.c`, `fbp.c`: values in IEEE arithmetic | fold as a sum over segments, standard model of rounding with underflow |
| C126 | `ospml_hybrid.c`, `ospml_quad.c` in IEEE arithmetic: undefined behaviour | loop invariants, neighbours stay in the slice; refutations |
| C127 | same: slices | relational invariants of pairs of runs |
| C128 | same: value of a pass per pixel | loops as folds, each pixel visited once, neighbour lists by position |
| C129 | same: signs | sign bits, square root and division in two precisions with error bounds; refutation |
| C130 | `grad.c`, `tikh.c`, `tv.c` in IEEE arithmetic: undefined behaviour | loop invariants; refutation |
| C131 | same: independence of slices, bit for bit | corollary of C132 and extensionality of its specification |
| C132 | same: values of all iterations; the scale | loops that touch each cell once, induction over iterations; error analysis of the scale |
| C133 | same: blank slices, NaN from 0/0 | zeros and NaN through the specification of C132 |
| C134 | `prep.c` `normalize_bg`, `stripe.c` in IEEE arithmetic: undefined behaviour | loop invariants; refutation |
| C135 | `normalize_bg`: values, error bound, cancellation, NaN | loops that touch each cell once; error analysis; refutation |
| C136 | `remove_stripe_sf`: values, error bound, trivial windows | same |
| C137 | `vector.c` `vector`, `project2`, `project3` in IEEE arithmetic: undefined behaviour | agreement of `calc_dist2` with `calc_dist`; loop invariants; refutation |
| C138 | `vector`: value of a pass, composition, independence of slices, NaN | sums per cell over the rays; slices that touch only their own cells; refutation |
| C139 | `project2`, `project3`: values; rays of `project`; error bounds of the direction and the sum | loops that touch each cell once; error analysis |


## Trusted base

* The Coq kernel (8.16.1, no flags changed), and the correspondence between `/repo` and the models,
  which is by reading only: line numbers are cited at each definition.
* No axioms are added.  `Print Assumptions` of the property theorems lists only axioms of the standard
  library: those of the real numbers (`ClassicalDedekindReals.sig_forall_dec`,
  `ClassicalDedekindReals.sig_not_dec`, `FunctionalExtensionality.functional_extensionality_dep`) and, through
  Flocq and some lemmas on reals, `Classical_Prop.classic`.  Grouped list at the end of this file.
* Taken as parameters or by documented behaviour: numpy indexing, slicing, broadcasting, reductions
  (`np.mean`, `np.median`, `np.max`), numexpr expressions, `scipy.ndimage` filters (arbitrary result in C16, `median_filter` in reflect mode in C34), `argsort` (any sorting permutation), `np.polyfit` (exact on horizontal lines), `RectBivariateSpline` (linear interpolation along a row),
  `qsort` (any function that sorts), libm (`cos`, `sin`, `sqrt`, `log` exact; `atan2` any function into
  [-pi, pi]), `multiprocessing` pools (all interleavings), `rand` in `inpainter.c` (any function), FFT (any function of the buffer in C33, the exact unnormalised sums in C74–C76), malloc never fails, no integer overflow.
* Exact real arithmetic instead of floats: C09 (also in binary32), C11, C17, C19–C28, C31, C35, C36, C53–C68 (C63 is generic), C70–C89, C92–C97, C101–C104, C107, C109, C111, C112, C117–C119 and wherever the
  note in `MANIFEST.json` says so.  Effects of rounding in these parts are outside the model.
* IEEE binary32 arithmetic (Flocq's `binary_float`, one NaN): C120–C139; binary64 where C computes in double; ints of 32 bits with overflow as undefined behaviour in C121–C139.  Each operation of the C code is rounded once (no contraction to fused multiply-add, no excess precision, no `-ffast-math`); `sinf`/`cosf` are any values in [-1, 1] (C122: with relative error up to 1/1000), `fmodf` any function with values in [-6.29, 6.29].

## Not modelled

* NPP (a parameter in C111–C113), several devices and the memory model of CUDA below the level of kernels in a stream, the PTL thread pool itself (submodule not in `/repo`), the fixed point arithmetic of `cv::warpAffine`; `add_poisson`; the packages ASTRA, UFO, lprec and tomopy_peri themselves (parameters in C107–C110); FFT code itself (exact sums are used), the wavelets of pywt except 'haar' and scipy's `savgol_filter` (parameters in C102, C103);
  I/O; plotting; logging; creation and inheritance of shared memory by the workers (slicing: C01, C04; layout: C105);
  `numexpr` internals; scipy's minimiser, spline interpolation and Gaussian filter and skimage's registration in `rotation.py` (parameters in C86–C90).

## Findings

Each one is backed by a `_refuted` theorem unless marked (reading).

* `get_worker_ncore_slices` uses `np.int`, missing in new numpy (C03). Negative `ncore`/`nchunk` are accepted and process nothing (C43).
* `distribute_jobs` with one core loses jobs that ask for the host, and may not terminate (C44).
* `_dist_recon` leaves `OMP_NUM_THREADS` changed after an exception; an empty dimension sets it to a value that makes later calls fail (C45).
* `recon` adds the `accelerated` keywords to the module tables at every call (C06).
* `art` and `project` use the first centre of the chunk for all slices, `gridrec` one per pair: results depend on `ncore`/`nchunk` (C29, C41, C56).
  The prior image of `tikh` is not sliced with the chunk (C42).
* `adjust_range`: one NaN disables clamping; an upper limit below the data sets everything to the old minimum (C46).
* Normalisation overflows for values of at least 2^127 (C47). `median_filter_nonfinite` keeps repairs of a failed call (C48).
* Futures of thread pools are never inspected, so failures are lost (C49).
* `median_filter3d`/`remove_outlier3d` choose the kernel by the type before conversion (C50).
* `normalize_nf` ignores `averaging='mean'`-type choices and raises for `median` (C51); the nearest flat is missed for distances 4k+1 (C52).
* `downsample`/`upsample` drift if the size is not a multiple of the factor (C54). `sino_360_to_180` fails for overlaps 0, 1 and full (C55).
* `sirt`/`bart` divides by the sum of squared lengths; short chords diverge (C57). Its assertion on `subset_end` is false (C58).
* `osem`/`mlem` give 0/0 after zero counts (C26). Penalised solvers on a single row read another slice (C59).
* `remove_ring`: `rwidth = 0` and slices small compared with `rwidth` read and write outside the arrays (C30); reflection with
  `theta_min` close to 180 reads row -1, and the first row is not masked (C31); a centre outside the slice uses a row pointer
  that was not allocated (C62).
* `remove_ring` never corrects pixels in the last half sector before a full turn (C60_seam_refuted).
* `inpainter_morph`: `iterations` above one has no effect; the 2-D median kernel averages the median with a random value and the
  3-D one writes zeros; `size=0` is undefined; neighbours that cancel leave voxels unfilled (C32); single-row slices fail (C63).
  (reading) `size` is used as the half width of the window.
* `retrieve_phase(pad=False)` filters a constant image made of the last pixel of each projection; `pad=True` does so whenever the
  pad width is zero, e.g. for sizes 2^k - 1 with one pixel wanted (C33). For odd sizes the mean of a projection is damped, and
  the filter is not symmetric for any size (C64).
* `remove_stripe_ti`: projections after the last complete block become constant images; more blocks than projections raise (C36).
  The result is NaN everywhere for sinograms with equal columns or equal projection sums and for blocks of one projection (C65);
  the loop then runs all 1,000,000 iterations. (reading) `np.isnan(..) is True` in `_ringb` never holds, so NaN is not removed;
  a negative `nblock` gives a constant image.
* `remove_stripe_based_sorting(dim=2)` can reverse the order of the values of a column if the window exceeds twice the number of projections (C34).
* `remove_stripe_based_interpolation`: a dead column in the two columns at an end is never replaced; with `norm=True` it becomes 0/0,
  and so do the columns interpolated from it (C67). `remove_stripe_based_sorting(dim=2)` changes sinograms without stripes (C65).
* (reading) `_detect_stripe` computes `np.int16(0.25 * n)`, which wraps for 131072 columns or more; fewer than three columns cannot be fitted.
* `C37_float_order_refuted`: phantoms are summed in float32, so the order of overlapping ellipsoids matters; `C37_centre_refuted`:
  `_transform` rotates before it subtracts (x0, y0, z0), so the centre of a rotated ellipsoid is not at that point;
  `C37_single_slice_refuted`: an axis of length one is sampled at -1, so `shepp3d((1, n, n))` is zero everywhere.
* `C38_fallback_refuted`: `detector_drift_adjust_aps_1id` tests `counter > len(kernels)` after `kernels[len(kernels)]` has been read: if
  one image stays undetected the function raises IndexError after 225 rounds instead of using the reference corners.
  (reading) its first retry repeats the first detection with the same kernel.
* `C39_endless_refuted`: `_rect_scan_coords` loops forever if the probe is longer than projection and step together;
  `C39_default_step_refuted`: a probe of one pixel has the default step zero (ZeroDivisionError).
* `C68_odd_refuted`: `probe_gauss` is half a pixel off centre for odd sizes.
* `C69_rectangle_refuted`: the fourth quadrant in `find_slits_corners_aps_1id` mixes up rows and columns, wrong unless the image is
  square; `C69_small_box_refuted`: a slit box nearer to the edge than the clip keeps nearly the whole image (negative slice end).
* `C70_joint_refuted`: `align_joint` returns the input images, not the aligned ones; `C70_caller_refuted`: `align_seq` and
  `align_joint` leave the caller's array divided by the scale factor; `C70_zero_refuted`, `C70_blur_refuted`: 0/0.
* `C71_default_refuted`: with the default `reg_par` (ones) `grad` diverges: on one pixel and one ray the misfit grows ninefold per iteration.
  `C71_bb_refuted`: with a negative `reg_par` an exact start gives 0/0 in the second iteration.  (reading) `grad.c` does not free `lambda`.
* `C72_prior_refuted`: `tikh.c` scales the image but not `reg_data`; a start that explains the data and equals the prior is changed.
* `C73_layout_refuted`: `tv.c` walks the image in rows of `ngridx` while the rays index it in rows of `ngridy`; on grids that are not square the
  penalty compares pixels that are not neighbours (`C73_square`: on square grids they are).  `C73_zero_refuted`: `lambda = 0` gives NaN on flat images.
  (reading) the step 0.35 is fixed; it is too long for e.g. a grid of many pixels crossed by a single ray.
* `gridrec.c` 251, 517, 526: `winv` has `pdim - 1` entries, but a grid of `pdim` pixels reads entry `pdim - 1`.  With the default grid
  this happens for every detector whose width is a power of two (from 16): the first row and the last column of the image are
  multiplied by whatever lies behind the table (C76_memory_refuted).  Grids larger than `pdim` read in front of the table (C76_large_refuted).
* `gridrec.c` 113-122 against 510: the correction table is centred at position -1 of the image, not at its origin (C77_centre,
  C77_centre_refuted): the window is divided out shifted by one pixel in both directions.
* `gridrec.c` 503-512: for odd grids the rotation axis is beside the middle pixel, behind it along columns and before it along rows
  (C77_axis, C77_axis_refuted).
* `filters.h` 83-93: hann and hamming use `cos(2 pi x / par)` with the default `par = 0.5`, so their minimum is at half of the highest
  frequency and the highest frequencies pass again (C78_hann_refuted).
* `C79_gridline_refuted`: with the axis on a detector pixel the central ray runs along a grid line of an image of even size and
  is counted in one row from one side, in the next from the other. `C79_default_angles`: `angles(n)` ends at 180 degrees
  inclusive, so the last projection only repeats the first.
* `C80_odd_refuted`: for objects of odd width with `pad=True` the detector has even width; the rays of angle zero run along grid
  lines and the first row of voxels is not seen. `C80_unpadded_refuted`: with `pad=False` the detector has the width `ox`, but
  at angle zero `oz` is across the detector.
* `C81_pad_refuted`: `pad=1` or `np.True_` raises UnboundLocalError. `C81_values`: the centre of the first slice of a chunk is used
  for the whole chunk.
* `C82_outside_refuted`: `project3` along axes 1 and 2 reads behind the arrays unless the volume is a cube; `C82_no_axis`: unknown axes are
  silently ignored. (reading) `project2` in Python ignores its argument `axis`; `project2` and `project3` leak `indx` and `indy`.
* `C83_unhit_refuted`: `vector` divides by the length of all rays in a pixel without the test that `vector2` has; pixels without rays are NaN.
* `C84_geometry_ignored`, `C84_second_geometry_refuted`: `vector2` and `vector3` use `theta1` and `center1` for all data sets; exact
  data of a field overwrite a component of that field. `C84_axes_refuted`: the axis arguments change what is simulated, not what is
  updated. `C84_no_axis_refuted`: with an unknown axis the result grows linearly with the number of iterations.
* `C85_ramp_refuted`: `add_drift` adds a ramp from 0 to 1 that is not documented. `C85_in_place_refuted`: `add_gaussian` and
  `add_salt_pepper` modify the caller's array.
* `rotation.py` 82-202, `C86_ratio_refuted`: the argument `ratio` of `find_center` is never used (`write_center` likewise, 570-571: the masks have
  radius 1). `C86_outside_refuted`: pixels outside the histogram limits are not counted, so that a reconstruction of which nothing lies within the limits has the
  smallest cost of all.
* `rotation.py` 377-387, `C87_centre_refuted`: `_create_mask` is centred at `ceil(n/2) - 1`, frequency zero is at `n // 2` after `fftshift`: for even
  widths (and the rows, whose number is always even) the wedge is one element off; column frequencies -2 to 0 are removed instead of -1 to 1.
* `rotation.py` 254-262, `C88_binned`, `C88_binned_refuted`: for data of more than 4 million values the coarse search runs on columns averaged by four, and its answer `c`
  is used as `4 c`, although the column `c` of the binned data is at `4 c + 1.5`; a search radius of 1 cannot reach the axis. `C88_range_refuted`,
  `C88_start_refuted`: when the step does not divide the radius the last candidate lies beyond it (and the detector) and the start is not a candidate.
  `C88_order_refuted`: `smin > smax` raises ValueError from argmin of an empty list.
* `rotation.py` 355-388, `C89_few_answer`, `C89_few_refuted`: with at most two projections at the default ratio the mask is empty, the metric is 0 everywhere and the first candidate is returned.
* `rotation.py` 547-578, `C91_names_refuted`: file names have two decimals; centres 0.01 apart can overwrite each other's file.
* `rotation.py` 600-610, `C92_blank_refuted`: blank or uniform data are divided by zero; no slice is marked. (reading) integer data raise in `projs_sum /= ...`.
* `stripes_detect3d.c` 498, `C93_median_refuted`: the "median" filter takes index size - 1 of 2 size + 1 sorted values.
* `stripes_detect3d.c` 196-212, `C93_range_refuted`, `C93_flat`: where the data are flat the smoothed data are left in the weights if negative, so weights leave [0, 1]; flat non-negative regions get weight 0, as stripes do.
* `stripe.py` 1026-1047, `C93_outside_refuted`: a volume with one slice passes the checks; `ratio_mean_stride3d` and `mean_stride3d` then index outside the arrays.
* `stripe.py` 1150-1168, `C94_outside_refuted`: `min_stripe_width` above a quarter of the number of angles makes `merge_stripes` read outside the mask.
* `stripes_detect3d.c` 324-325, `C94_quota_refuted`: `(int) (0.01F * 85 * 60)` is 50.
* `stripes_detect3d.c` 343-364, `C94_deep`, `C94_threshold_refuted`: "minimum depth" removes features that are *deeper*; raising the threshold can empty the mask.
* `stripes_detect3d.c` 430-458, `C94_border_refuted`: merging uses mirrored positions and grows a stripe to the border.
* `accel/utils.hh` 178-180, `C95_back_refuted`: cv::Point truncates the centre n/2 + 1/2 to n/2, for even n half a turn loses a column.
* `accel/utils.hh` 214-232, `mlem.cc` 153-167, `C95_bounds_refuted`: num_gridy smaller than the detector makes the loops run past the image.
* `accel/cxx/mlem.cc` 160-166, `C96_consistent`, `C96_fixed_refuted`, `C96_scale_refuted`: the correction is *added* to the turned image and the sum is used as a
  factor, so an image that explains the data is multiplied by (r + 1)/n.
* `accel/cxx/sirt.cc` 161-167, 228, `C97_consistent`, `C97_growth_refuted`: the update contains the image itself; consistent images grow by 1 + 1/n per iteration.
  `C97_start_refuted`: rays with zero total are skipped, so zeros are never left.
* `accel/common.hh` 147-151, 214-229, `C98_device_refuted`: "gpu10" selects the CPU; "cpu" in a build without OpenCV selects the GPU.
* `accel/common.hh` 284, 327: TOMOPY_PYTHON_THREADS=0 divides by zero (`C98_device_answers`).
* `accel/utils.hh` 87-97, `C98_interp_refuted`: an unknown interpolation reads as 0, nearest neighbour on the CPU, abort() on the GPU.
* `accel/data.hh` 70, `C98_pool_refuted`: pool_size -1 asks for 4294967295 threads.
* `accel/cxx/mlem.cc` 109-116, `C98_fallback_refuted`: "Falling back to CPU algorithm" is printed, nothing falls back and Python drops the status.
* `accel/cxx/mlem.cc` 133, `C99_buffers_refuted`: thread number modulo pool size is a private buffer only if the numbers are consecutive.
* `prep/stripe.py` 416-419, `C100_border_refuted`: near the border the window sees the stripe twice (reflection), so a stripe in the first columns stays.
* `prep/stripe.py` 479-498, `C101_residue_refuted`, `C101_odd_refuted`: the Gaussian of `_create_1d_window` is centred at (M-1)/2 while the zero frequency of the
  sign-shifted spectrum is at M/2: even M leaves 1-exp(-1/(8 sigma^2)) of every stripe, odd M turns constants into a wave.
* `prep/stripe.py` 580-594, `C102_odd_refuted`: the same half-sample offset in two dimensions: a constant sinogram with an odd number of columns does not stay constant.
* `prep/stripe.py` 164, `C103_residue_refuted`: the damping function is centred half a sample beside the zero frequency for an even number of rows.
* `prep/stripe.py` 121-123, `C103_level_refuted`: the default level uses the largest of all three dimensions, including the number of sinograms.
* C104_odd_refuted, C104_unpadded_refuted, C104_contact_refuted, C104_frequency_refuted: `retrieve_phase` reduces constant
  projections when a padded size is odd (every odd detector size); with `pad=False`, or when both pad widths come out as zero, each
  projection is replaced by a constant (its last pixel); the filter is sampled at (k + 1/2)/((n - 1) pixel) (even n) or
  (k + 1)/((n - 1) pixel) (odd n) instead of k/(n pixel).
* `util/dtype.py` 168-210, `util/mproc.py` 257-331, `C105_slice_refuted`, `C105_transposed_refuted`: the test for shared memory looks at the base
  of a view, but the workers rebuild the array from the buffer with the shape of the view. A slice of a shared array raises ValueError, a shared
  array with exchanged axes is processed in the order of its memory.
* `util/mproc.py` 257-331, `C105_overwrites_refuted`: a shared array given by the caller is overwritten by calls that are documented as not in place.
* `util/mproc.py` 274-288 and 378-384, `C105_out_in_place_refuted`, `C105_out_strided_refuted`: with jobs that work in place `out` stays as it was; a strided shared
  `out` is refused.
* (reading) `util/mproc.py` 291 and 377: the dtype of the last array is used for all arrays of a call.
* `recon/algorithm.py`, `sim/project.py`, `C106_theta_refuted`, `C106_theta_reversed_refuted`: `theta[::2]` of 32 bit floats is not copied
  (`np.asarray`, no C order) and C reads the angles in between; for `theta[::-1]` it reads behind the buffer.
* `sim/project.py` (project2, project3), `C106_object_refuted`: objects are not made C ordered.
* `misc/corr.py` (median_filter3d), `C106_median_refuted`: the result is allocated like the argument, without order='C'. For an argument with
  exchanged axes the result is scrambled. The other C filters ask for order='C'.
* `misc/corr.py` (remove_ring), `C106_ring_out_refuted`: with `out` the filter is applied to what `out` held before, the argument `rec` is ignored.
* (reading) `np.array(reg_data)` keeps Fortran order, so the C code sees the transposed array.
* `recon/wrappers.py` (astra_rec), `C107_rounded_refuted`, `C107_far_refuted`: centres are rounded to half the detector plus a whole number, and a
  centre to the right of 1.5 detector widths leaves rolled data of other angles in the sinogram.
* `recon/wrappers.py` (astra), `C107_lost_refuted`: the futures of the GPU threads are dropped, so exceptions there are lost and the call returns
  the start image. `C107_callers_refuted`: the defaults are written into the caller's `options`.
* `recon/wrappers.py` (lprec), `C108_wide_refuted`: more than 4096 columns give batches of zero slices and ZeroDivisionError.
  `C108_two_calls_refuted`: the global list of busy GPUs is cleared by every call, two calls at a time use one GPU twice.
  (reading) only `int(center[0])` is used; the example of the docstring uses 'lpfbp', which is not a method.
* `recon/wrappers.py` (UFO), `C109_small_refuted`: numpy repeats one pixel if the image is smaller than the detector by two pixels.
  `C109_angles_refuted`: the angles are replaced by multiples of the first difference; the first angle is ignored.
* (reading) `recon/acceleration.py`: `find_spec` raises nothing for a missing package, so the search always takes the first name.
* `gpu/mlem.cu` 201-230 and `gpu/sirt.cu`, `C112_mlem_release_refuted`, `C112_sirt_release_refuted`: `gpu_memset(update, …)` is put into the main
  stream and only the streams of the workers are synchronised before the projections are started; in a release build the reset may
  run after additions of the workers, which are lost.  In a debug build the check macros synchronise (`C112_mlem`, `C112_sirt`).
* `gpu/sirt.cu` against `cpu/sirt.cc`, `C112_sirt_refuted`: the kernel corrects rays with sum zero, the host code leaves them, so SIRT started
  from zero works on the device and stays zero on the host (`C97_start_refuted`).
* `gpu/utils.cu` 186-254, `C113_wrong_refuted`, `C113_throw_refuted`: a thread whose stream is the current one goes on without the lock while another
  thread sets the stream; the rotation runs in the wrong stream or the check throws.
* `gpu/utils.cu` (count of the projections), `C111_count_refuted`: the buffer is cleared with nx * nx instead of nx * ny cells; stale cells are counted when
  ny > nx, cells behind the buffer are cleared when nx > ny.
* (reading) `gpu/`: the update kernel of MLEM ignores the option `block_size`; after an exception the log says "Falling back to CPU algorithm"
  but the function returns an error; the grid of the counting kernel uses `dt` where `dx` is meant (harmless).
* `util/extern/*.py`, `C114_wrap_refuted`: c_int keeps the low 32 bits, `num_iter = 2**32 + 1` runs one iteration. `C114_dtype_refuted`: a float64
  array is handed over as if it were float32.
* `recon/algorithm.py`, `C116_init_refuted`: the shape of `init_recon` is not compared with the grid, C writes behind a smaller one.
  `C116_reg_par_refuted`: one number as `reg_par` of tikh, pml_hybrid and ospml_hybrid, C reads two. `C116_ind_block_refuted`: a short `ind_block` is read behind its end.
  `C116_reg_data_refuted`: the default `reg_data` of tikh has the size of the detector, a wider grid reads behind it.
  `C116_filter_refuted`: 'custom' and 'custom2d' read a table of pdim/2 numbers (for each projection) from the two default numbers.
  `C116_num_block_refuted`: `num_block = 0` arrives in C, which divides by it. `C116_float32_refuted`: a `numpy.float32` as `reg_par` raises AttributeError.
  `C116_int_refuted`: one chunk of 512 slices of 2048 x 2048 pixels has more cells than int can count.
* `prep.c`, `C115_normalize_bg_refuted`: more air pixels than columns read in front of and behind the row.
* (reading) `misc/morph.h` names the parameters of `sample` axis, npad where `morph.c` has level, axis; restype of functions without result is
  POINTER(c_void_p); `init_recon` is changed in place if it is float32 in C order, and copied otherwise.
* `prep/alignment.py` 852–873, `C117_drift_refuted`, `C117_scene`: the matrix fitted from the corners of the image to those of the reference is given to `affine_transform`,
  which needs the map from the result to the image, and corners (column, row) are used as (row, column). A drift by (dx, dy) becomes one by dx + dy in both directions.
* `misc/npmath.py`, `C118_one_refuted`: `discrete_cdf` ends at n/(n-1) instead of 1. `C118_largest_refuted`: with `steps` the largest number may be missing.
  `C118_few`: one number gives NaN. `C118_no_steps`: `steps <= 0` raises ZeroDivisionError or IndexError.
* `misc/corr.py`, `C119_black_refuted`: an image whose median filtered image is zero gives NaN. `C119_negative_refuted`: with negative values (e.g. after background subtraction)
  a darker pixel may come out brighter, since the filtered image is squared.
* C120_large_refuted: the margin of 0.01 at the border of the grid vanishes by rounding for 2^20 columns; the ray of the last
  detector pixel (centre in the middle, sine -1, cosine 0) gets the pixel index `ngridx*ngridy`, one behind the image.  Up to 2^15 columns
  this cannot happen.  The buffers of `ngridx+ngridy` points suffice only because of that margin: a ray through two opposite corners would
  have one point more.
* C121_no_blocks_refuted, C121_nan_angle_refuted: `num_block=0` in `bart`, `sirt`, `osem`, `mlem` divides by zero; an angle
  that is NaN or infinite is converted to int in `calc_quadrant` (undefined behaviour).  Neither is checked in Python.
* C122_tiny_refuted: `calc_quadrant` truncates towards zero, so angles between -2.9e-9 and 0 land in the first quadrant instead
  of the fourth.  C122_ordered shows that no result depends on it (such a ray meets at most one line of the first family).
* C124_zero_ray_refuted: `osem`/`mlem` with an `init_recon` that is zero along a ray with a positive measurement give NaN
  in all pixels of the ray (data/0 is infinite, 0 times infinity is NaN); NaN then spreads to all rays through these pixels.
* C126_one_row_refuted: `ospml_hybrid`/`ospml_quad` on a grid of one row read the pixel before the first of the slice (in the first
  slice: in front of the array); C59 has the same finding for exact arithmetic.
* C129_negative_refuted: the penalised solvers do not keep pixels non-negative.  sqrt of the float product G*G can be below G, so
  -G + sqrt(G*G) is negative: one pass of `pml_quad` with beta 0.1 over zero data turns an image of ones into -1.5e-8 everywhere.
  C129_quad_partial bounds this by (sum of lengths) * 2^-22 / beta; a small beta makes it visible.
* C130_short_refuted: `grad`, `tikh` and `tv` read past `reg_pars`/`reg_data` that are too short; nothing checks their lengths.
* C133_grad_nan: `grad`/`tikh` with a negative `reg_par[0]` (automatic step) and at least two iterations turn every pixel of a slice without
  signal (zero data, zero start) into NaN, because the step is 0/0.  The other slices are not affected (C131).
* C133_tv_zero: `tv` with `reg_par=0` makes all pixels of a constant start image NaN (0/0 in the projection of the dual variable), except
  in the last row and column; the default start image is constant.  A negative `reg_par` silently switches the penalty's constraint off.
* C135_bg_cancel_refuted: `normalize_bg` computes the right end of its line as left + (right - left); if the right air level is less than
  about 2^-24 of the left one it is lost, the line ends in zero and pixels become infinite instead of one.
* C135_bg_nan: `normalize_bg` returns NaN for every pixel of data with one column (slope 0/0) and for `air=0`.  C136_sf_nan: so does
  `remove_stripe_sf` with `size=0`.  A negative `air` changes nothing.
* `C137_project3_refuted`: `project3` along axis 1 or 2 takes the plane and row numbers as column, row and slice of the object, so with an
  object that is no cube it reads beyond its end (grid of one slice, 1 x 2); `sim.project.project3` checks no shape.
* `C138_unseen_refuted`: `vector` makes every pixel without a ray NaN in both components (machine arithmetic, all geometries; cf. C83).
* `C139_no_axis`: `project3` with an axis other than 0, 1, 2 returns zeros without an error.
* (reading)
  `sobel_filter` raises NameError; `trim_sinogram` slices with floats.

## Mutation tests

`seeded/LOG.jsonl` lists edits of model definitions (wrong programs) made in a scratch copy, the claim each breaks, and the first
statement in each file that no longer checks.  Survivors led to the theorems listed under `theorems_tightened`.
A failing lemma shows that the checked development rejects the edit; where the failure is in a `Proofs_*` file, later statements
were not tried.  Edits that do not type-check are left out.
## Axioms per theorem (Print Assumptions)

* `ClassicalDedekindReals.sig_forall_dec`, `ClassicalDedekindReals.sig_not_dec`, `FunctionalExtensionality.functional_extensionality_dep` (265): C101_default, C101_kernel, C101_stripe, C101_value, C101_wave, C102_constant, C102_mean, C102_ripple, C102_scale, C103_even, C103_odd, C103_stripe_band, C103_stripes, C103_unchanged, C103_uniform, C104_constant, C104_contact, C104_contact_padded, C104_contact_refuted, C104_energy, C104_even, C104_linear, C104_mean, C104_odd_refuted, C104_unpadded_refuted, C104_wave, C111_count, C111_count_refuted, C112_cpu, C112_ends, C112_mlem, C112_mlem_orderly, C112_mlem_release_refuted, C112_progress, C112_sirt, C112_sirt_orderly, C112_sirt_refuted, C112_sirt_release_refuted, C115_art, C115_fbp, C115_grad, C115_hybrid, C115_project, C115_quad, C115_row_refuted, C115_subsets, C115_tikh, C115_tv, C118_symmetric, C18_default_holds_diagonal, C21_buffers, C21_distinct, C21_inside_pixel, C21_length, C21_ordered, C21_pixels, C21_points, C21_quadrant, C23_adjoint, C23_back_projection, C23_linear, C23_ray_sums, C24_fixed_point, C24_last_ray, C24_never_farther, C24_ray_equation, C25_finite, C25_fixed_point, C25_unhit, C26_counts, C26_fixed_point, C26_nonnegative, C26_positive, C26_refuted, C27_schedule, C28_constant, C28_positive, C28_zero_penalty, C32_between, C32_completes, C32_more_iterations_refuted, C32_weighted_mean, C36_blocks, C36_divisible_partial, C36_too_many_refuted, C36_trailing_refuted, C37_centre, C37_centre_refuted, C37_concat, C37_flat, C37_float_order_refuted, C37_order, C37_shepp, C37_single_slice_refuted, C37_sizes, C37_sum, C40_centre, C40_linear, C40_range, C40_sinogram, C40_trivial, C56_art_refuted, C56_bart_partial, C56_fbp_partial, C56_osem_partial, C56_project_refuted, C57_sirt_partial, C57_sirt_refuted, C59_separate, C59_single_row_refuted, C60_bounded_change, C60_pixel, C60_polar_image, C60_seam_refuted, C61_constant, C62_outside_circle, C62_samples_inside, C62_slices, C65_equal_sums_refuted, C65_single_refuted, C65_ti_refuted, C66_minimal, C68_attenuation, C68_laplacian, C68_linear, C68_tilt, C71_bb, C71_bb_length, C71_bb_refuted, C71_bound, C71_closer, C71_default_refuted, C71_descent, C71_finite, C71_first, C71_fixed_point, C71_none, C71_rate, C71_slope, C71_step, C72_descent, C72_fixed_point, C72_no_prior, C72_none, C72_prior_refuted, C72_rate, C72_step, C73_bounded, C73_layout_refuted, C73_none, C73_optimal, C73_run, C73_settles, C73_short, C73_square, C73_still, C73_still_optimal, C73_zero_refuted, C74_alone, C74_others, C74_value, C75_full_turn, C75_linear, C75_offset, C75_opposite, C75_order, C75_shift, C76_memory, C76_memory_refuted, C76_winv, C76_winv_set, C77_norm, C78_hann, C78_hann_refuted, C79_default_angles, C79_gridline_refuted, C79_mirror, C79_same_line, C80_column_sums, C80_conserved, C80_crop, C80_odd_refuted, C80_padded_border, C80_padded_covers, C80_row_sums, C80_unpadded_refuted, C81_angles, C81_angles_negative, C81_common_center, C81_values, C82_components, C82_no_axis, C82_opposite, C82_outside_refuted, C82_project2, C82_project3, C82_reads, C83_finite, C83_fixed_point, C83_never_farther_partial, C83_step, C83_unhit_refuted, C84_axes_refuted, C84_fixed_point, C84_geometry_ignored, C84_never_farther_partial, C84_no_axis_refuted, C84_second_geometry_refuted, C84_start, C84_vector2_step, C84_vector3_step, C85_copies, C85_drift, C85_ramp_refuted, C87_centre_refuted, C87_fine, C87_metric, C87_mirror_partial, C87_nonneg, C87_offset, C87_scale, C88_linear, C88_slices, C88_vo, C89_few, C89_few_answer, C89_mask, C89_radius, C92_blank_refuted, C92_flat, C92_length, C92_order, C92_rows, C92_scale, C92_threshold, C95_back, C95_back_refuted, C95_count, C95_count_disc, C95_count_range, C95_disc, C95_linear, C95_nearest, C95_planes, C95_range, C96_consistent, C96_fixed_refuted, C96_iterate, C96_nonneg, C96_outside, C96_scale_refuted, C96_slices, C96_step, C96_unseen, C96_zero, C97_consistent, C97_fixed_refuted, C97_growth_refuted, C97_iterate, C97_outside, C97_scale, C97_slices, C97_start_refuted, C97_step, C97_unseen
* closed under the global context (no axioms) (216): C01_distribute_slices_cover, C01_empty_axis_rejected, C01_recon_slices_cover, C02_chunks_for_all_cores, C02_default_split_balanced, C03_default_split_refuted, C03_ranks_cover_axis, C03_ranks_partition_slices, C04_any_split_any_schedule, C04_schedule_independent, C04_schedule_independent_in_place, C04_some_schedule_completes, C05_failure_raises, C05_host_fallback_completes, C05_returned_means_all_ran, C06_table_unchanged_refuted, C06_validation_exact_any_history, C06_verdict_history_independent, C07_each_slice_once_any_schedule, C07_plan_always_exists, C08_env_restored, C08_env_restored_any_history, C08_numexpr_threads_restored, C09_cutoff_never_exceeded, C09_never_divides_by_zero, C100_border_refuted, C100_removed, C100_single, C100_wide, C103_level, C103_level_refuted, C105_arrays, C105_chain, C105_copy, C105_memory, C105_out, C105_out_in_place_refuted, C105_out_strided_refuted, C105_overwrites_refuted, C105_private, C105_slice_refuted, C105_transposed_refuted, C106_filter, C106_median, C106_median_refuted, C106_object, C106_object_refuted, C106_ring, C106_ring_out_refuted, C106_stripe_sf, C106_theta, C106_theta_refuted, C106_theta_reversed_refuted, C106_theta_seen, C106_tomo, C107_callers_refuted, C107_needed, C107_options, C108_batches, C108_ends, C108_exclusive, C108_free, C108_length, C108_result, C108_two_calls_refuted, C108_wide_refuted, C109_crop, C109_defined, C109_grid, C109_small_refuted, C10_group_nearest_up_to_one, C10_groups_are_consecutive, C110_choice, C110_raises, C111_cover, C111_cover3, C111_grid, C113_exclusive, C113_free, C113_holder, C113_pass, C113_same, C113_throw_refuted, C113_wrong_refuted, C114_dtype_refuted, C114_int, C114_succeeds, C114_wrap_refuted, C114_wrappers, C116_default, C116_filter_refuted, C116_float32_refuted, C116_ind_block_refuted, C116_init_refuted, C116_int_refuted, C116_num_block_refuted, C116_number, C116_reg_data_refuted, C116_unknown, C12_adjust_range_clamps, C12_one_limit, C13_commute, C13_remove_nan_exact, C13_remove_neg_exact, C14_projections_independent, C14_raises_exactly_when_window_empty, C14_repairs_exactly_nonfinite, C15_2d, C15_api_dezinger, C15_api_median, C15_dezinger, C15_median_filter, C15_orders, C15_schedule_independent, C15_window_complete, C15_window_inner, C15_window_values, C16_remove_outlier_exact, C17_circ_mask_all_axes, C17_symmetric_nested_idempotent, C18_arguments, C18_pad_constant, C18_pad_edge, C27_even, C27_once, C29_gridrec_common_center_partial, C29_gridrec_own_center_refuted, C30_bubble, C30_float_partial, C30_quick_sort, C30_radius_zero_refuted, C30_rolling_median_partial, C30_window_outside_refuted, C32_any_schedule, C32_median_2d_refuted, C32_median_3d_refuted, C32_outside_unchanged, C32_signed_refuted, C32_size_zero_refuted, C33_even, C33_no_padding_refuted, C33_pad_width, C33_pad_width_refuted, C33_padded, C34_default, C34_identity, C34_large_window_refuted, C34_positions, C34_rank_order, C39_default_step_refuted, C39_endless_refuted, C39_exposures, C39_positions, C40_load, C41_art_common_center_partial, C41_art_own_center_refuted, C42_prior_alignment_refuted, C42_prior_single_chunk_partial, C43_negative_nchunk_refuted, C43_negative_ncore_refuted, C43_zero_ncore_rejected_partial, C44_single_core_refuted, C44_termination_refuted, C45_env_after_exception_refuted, C45_env_poisoned_refuted, C46_nan_disables_clamping_refuted, C46_upper_limit_below_data, C46_upper_limit_refuted, C47_overflow_refuted, C48_failed_call_atomic_refuted, C49_task_failures_partial, C49_task_failures_refuted, C50_kernel_matches_data_partial, C50_kernel_matches_data_refuted, C52_nearest_partial, C52_nearest_refuted, C58_assertion_refuted, C58_bound_partial, C63_slices, C63_thin_slices_refuted, C63_volume, C65_sorting, C65_square_window_refuted, C69_rectangle_refuted, C69_square, C76_edge, C76_inside, C76_large_refuted, C76_pdim, C76_walk, C77_axis, C77_axis_refuted, C78_two_dimensional, C81_pad_refuted, C95_bounds, C95_bounds_refuted, C98_device_answers, C98_device_cpu, C98_device_default, C98_device_gpu, C98_device_index, C98_device_refuted, C98_device_there, C98_dispatch, C98_fallback_refuted, C98_index_words, C98_interp, C98_interp_known, C98_interp_refuted, C98_numbers, C98_pool, C98_pool_auto, C98_pool_auto_gpu, C98_pool_refuted, C99_buffers, C99_buffers_refuted
* `ClassicalDedekindReals.sig_forall_dec`, `FunctionalExtensionality.functional_extensionality_dep` (162): C09_normalize_value, C103_haar, C104_frequency_refuted, C104_pad_pixels, C104_response, C104_wavelength, C104_zero_frequency, C107_columns, C107_far_refuted, C107_gpus, C107_lost_refuted, C107_no_gpus, C107_raises, C107_rounded_refuted, C107_slices, C107_whole, C109_angles, C109_angles_refuted, C109_first, C10_each_projection_in_one_group, C111_atomic, C111_mlem_rows, C111_sirt_rows, C111_update, C115_normalize_bg, C115_normalize_bg_refuted, C116_reg_par_refuted, C117_affine, C117_drift_refuted, C117_errors, C117_exists, C117_last_row, C117_scene, C117_shift, C117_unique, C118_cdf, C118_few, C118_largest_refuted, C118_no_steps, C118_one_refuted, C118_thinned, C119_black_refuted, C119_exposure, C119_monotone, C119_negative_refuted, C119_normalised, C119_order, C119_range, C119_recoded, C119_stack, C119_strict, C119_weight, C11_flat_air_gives_one, C11_normalize_bg_value, C15_threshold_uint16, C17_mask_is_disc, C19_down_up, C19_downsample_axis0, C19_downsample_axis1, C19_downsample_axis2, C20_columns_left, C20_columns_right, C20_recovers_row, C21_detector, C22_frame, C22_merge, C31_reflect_outside_refuted, C31_rolling_mean_partial, C31_zero_stays_zero_refuted, C35_mean, C35_only, C35_shift, C37_grid, C38_fallback_refuted, C38_found, C38_near, C38_terminates, C39_near, C51_averaging_refuted, C51_median_refuted, C51_single_location_partial, C53_roi_normalisation, C54_incomplete_groups_axis1_refuted, C54_incomplete_groups_partial, C54_incomplete_groups_refuted, C55_full_overlap_refuted, C55_overlap_one_refuted, C55_overlap_zero_left_partial, C55_overlap_zero_right_refuted, C60_ring_image, C62_centre_outside_refuted, C64_even, C64_odd_refuted, C64_symmetric_refuted, C65_all, C65_dead, C65_filtering, C65_interpolation, C65_large, C66_alpha, C66_kernels, C67_between, C67_border_refuted, C67_dead, C67_detect, C67_interpolation, C67_large, C67_sequence, C67_thresholds, C69_box, C69_small_box_refuted, C70_aligned, C70_blur, C70_blur_refuted, C70_caller_refuted, C70_converges, C70_joint_refuted, C70_scale, C70_shift, C70_zero_refuted, C76_box, C76_winv_reads, C77_centre, C77_legendre, C77_prolate, C77_table, C85_corrupted, C85_default_value, C85_gaussian, C85_in_place_refuted, C85_rings, C86_circle, C86_histogram, C86_limits, C86_room, C86_start, C88_answers, C88_best, C88_binned, C88_binned_refuted, C88_coarse, C88_fine, C88_fine_cover, C88_order_refuted, C88_range_refuted, C88_start_refuted, C90_exact, C91_default, C91_files, C91_name, C91_names_refuted, C91_range, C93_checks, C93_flat, C93_median_refuted, C93_order, C93_outside_refuted, C93_range, C93_range_refuted, C93_scale, C93_stripes, C93_weight
* `ClassicalDedekindReals.sig_forall_dec` (19): C114_detect, C114_inpainter, C114_mask, C114_median_float, C114_median_uint16, C114_prep, C114_project, C114_project2, C114_project3, C114_recon, C114_ring, C114_sample, C114_vector, C114_vector2, C114_vector3, C116_bounds, C116_values, C19_upsample, C70_pad
* `ClassicalDedekindReals.sig_forall_dec`, `ClassicalDedekindReals.sig_not_dec`, `Classical_Prop.classic`, `FunctionalExtensionality.functional_extensionality_dep` (135): C09_beer_lambert, C09_float32_value, C101_lowpass, C101_odd_refuted, C101_residue_refuted, C102_odd_refuted, C103_residue_refuted, C115_gridrec, C118_falls, C118_peak, C120_buffers, C120_grid, C120_kept, C120_large_refuted, C120_lengths, C120_margin, C120_near_line, C120_ordered, C120_pixels, C120_points, C120_solver_rays, C121_art, C121_empty, C121_fbp, C121_nan_angle_refuted, C121_no_blocks_refuted, C121_project, C121_subsets, C122_ordered, C122_ordered_any, C122_quadrant, C122_tiny_refuted, C123_art, C123_fbp, C123_project, C123_subsets, C124_fbp, C124_osem, C124_project, C124_untouched, C124_zero, C124_zero_ray_refuted, C125_fbp, C125_project, C126_no_blocks_refuted, C126_one_row_refuted, C126_safe, C127_slices, C128_gamma, C128_value, C129_bound_partial, C129_discriminant, C129_negative_refuted, C129_pixel_e, C129_quad_partial, C130_grad_safe, C130_short_refuted, C130_tikh_safe, C130_tv_safe, C131_grad, C131_tikh, C131_tv, C132_grad, C132_scale, C132_tikh, C132_tv, C133_grad, C133_grad_nan, C133_tv, C133_tv_zero, C134_bg_air_refuted, C134_bg_safe, C134_sf_safe, C135_bg, C135_bg_cancel_refuted, C135_bg_close, C135_bg_nan, C136_sf, C136_sf_close, C136_sf_nan, C136_sf_one, C137_project2, C137_project3, C137_project3_refuted, C137_vector, C138_passes, C138_slices, C138_unseen_refuted, C138_vector, C139_direction, C139_error, C139_no_axis, C139_project2, C139_project3, C139_ray_direction, C139_rays, C15_threshold_float, C16_never_raises_a_value, C16_threshold_in_reals, C28_minimises, C47_repaired_between_partial, C66_correction, C66_terminates, C68_gauss, C68_odd_refuted, C68_symmetric, C77_centre_refuted, C77_falls, C78_attenuates, C78_custom, C78_default, C78_low_pass, C81_transmission, C86_bounds, C86_defined, C86_least, C86_outside_refuted, C86_places, C86_ratio_refuted, C86_reversed, C89_few_refuted, C94_border_refuted, C94_checks, C94_deep, C94_mask, C94_merge, C94_order, C94_outside_refuted, C94_quota, C94_quota_mono, C94_quota_refuted, C94_source, C94_stripe, C94_threshold, C94_threshold_refuted
* `ClassicalDedekindReals.sig_forall_dec`, `Classical_Prop.classic`, `FunctionalExtensionality.functional_extensionality_dep` (1): C65_smoothing
