# Design: a Rocq model of dstndstn/tractor

## Approach

Each modelled Python (or C) function is a Gallina function with the same
branches, the same loop order and the same failure cases; exceptions are
values of a `res` type (`Base.v`).  Mutating methods return the new object.
Files come in threes: `XModel.v` (definitions citing file and lines in
/repo), `XProofs.v` (lemmas), `XProps.v` (the property statements with their
small independent specifications, non-vacuity examples and
`Print Assumptions`).

Numbers.  Code that only moves values around is modelled over an arbitrary
value type, so the theorems also hold for floats.  Code that compares is
modelled over extended numbers with NaN and infinities.  Code whose property
is an arithmetic identity is modelled over Z, Q or the real numbers, and then
floating-point rounding is *not* modelled; this is said in the file.

## Property by property

Parameters (C01-C15), `Params*.v`.  An object is a tree: a parameterless leaf
(`BaseParams`), a scalar (`ScalarParam`), a list (`ParamList`), a group
(`MultiParams`) or an absent member (`None`).  Specification: the flat list of
slots of the tree, each with a flag "all owners thawed".  C01-C05, C09, C13
are refinement statements against this flat view, by induction on the tree.
C06, C11 by induction over histories of calls.  C07, C08 by induction on the
tree.  C10: copy on the tree for values and flags; `Heap*.v` models objects and
lists as mutable cells that may be shared and shows that a copy is made of
fresh cells only, so that no later history on one side shows on the other, and
that unshared objects behave like trees.  C12, C14 are expected to be refuted in
general (the code indexes with the wrong index when something is frozen) and
proved when nothing is frozen.  C15 over the reals.

Patches (C16-C23), `Patch*.v`.  A patch is an origin plus an optional 2-D
array; the specification reads a patch as a function on the integer plane.
`get_overlapping_region` of the external astrometry package is modelled from
its documented behaviour and belongs to the trusted base.

Engine (C24-C26), `Engine*.v`.  Rendering of one source is an oracle.

Cache (C27, C28), `Cache*.v`.  The ordered dictionary is an association list in
insertion order; histories are lists of operations.

Optimizers (C29-C38), `Optim*.v`, `Lsq*.v`, `Forced*.v`.  The objective, the
renderer and the linear solver are oracles.

Arrays and numerics (C39-C50, C53).  `IntImg*.v`, `Roi*.v`, `Mags*.v`,
`Ellipse*.v`, `Mixture*.v`, `Approx3*.v`, `Corr7*.v`, `Spline*.v`, `Galaxy*.v`,
`Psf*.v`, `Shift*.v`.

C51, C56 `Mog*.v`; C52 `Multiproc*.v`.

## Trusted base

Coq 8.16.1 kernel (and coqchk).  Axioms: `Print Assumptions` is run for every
property theorem at the end of its `*Props.v`/`*Examples.v` file.  The list per
file is in the table below; files not over the reals are closed under the
global context.  The numerical theorems of `GalProfProps.v`,
`GalMixProps.v`, `SersicLawProps.v` and `SextProps.v` use the `interval` and `integral` tactics and
so list Coq's primitive machine integers and floats as well: from `PrimInt63`
int, add, sub, lsl, lsr, land, lor, eqb, ltb, leb with the specifications of
the same names in `Uint63` (and eqb_correct, eqb_refl, of_to_Z); from
`PrimFloat` float, abs, add, sub, mul, div, sqrt, opp, compare, eqb, ltb,
classify, of_uint63, normfr_mantissa, frshiftexp, ldshiftexp, next_up,
next_down with their specifications in `FloatAxioms` (and Prim2SF_valid,
Prim2SF_SF2Prim, SF2Prim_Prim2SF).  The counterexamples of `RoundImgProps.v` and
`RoundLikProps.v` are runs on machine floats and list `PrimFloat` float, add,
sub, mul, eqb and ltb.  The theorems of `Round*.v` use Flocq and list the axioms
of the reals with `classic` and `functional_extensionality_dep`.  All are the
standard library's.

The reading of the Python/C code that the models make, and the behaviour of
external functions, per file:

| files | code modelled | left out / trusted |
|---|---|---|
| `Params*.v`, `Flags*.v` | `utils.py`: BaseParams, ScalarParam, NamedParams, ParamList, MultiParams; `catalog.py`, `engine.Images` as groups | printing, `hashkey`; object identity (no aliasing in trees) |
| `PriorModel.v`, `PriorProps.v` | `utils.py` GaussianPriorsMixin, `lsqr_optimizer.py` prior rows | exact rationals instead of floats |
| `Patch*.v` | `patch.py` | `get_overlapping_region`, numpy slicing, `np.flatnonzero` modelled from their documentation |
| `Cache*.v` | `cache.py`, `basics/pointsource/galaxy` cache mixins | SHA hashing: keys are compared as values |
| `Ext.v`, `Engine*.v` | `engine.py` model image, likelihood, prior, masks | rendering of one source is an oracle; exact rationals with NaN and infinities |
| `Optim*.v` | `optimize.py` `tryUpdates`, `lsqr_optimizer.py`, `constrained_optimizer.py` loops | objective, update direction are oracles |
| `Lsq*.v`, `SharedProps.v` | `lsqr_optimizer.py` `getUpdateDirection` up to the call of `lsqr`, `shared params` | scipy `lsqr` and `csr_matrix` (duplicates are summed) are trusted |
| `Deriv*.v` | `pointsource.py`, `galaxy.py`, `sersic.py`, `image.py`, `engine.py` derivative assembly | rendering, WCS and calibration are oracles; patches, numbers of any type |
| `IntImg*.v` | `integral_image.py`, `symmetric_integral_image.py` | any commutative ring of pixel values (exact arithmetic) |
| `Roi*.v` | `imageutils.py` `interpret_roi` | WCS is an oracle; exact rationals; NaN positions left out |
| `Mags*.v` | `brightness.py` conversions, Mags, Fluxes, NanoMaggies, MagsPhotoCal, LinearPhotoCal | real numbers: rounding, overflow and zero fluxes (log of zero) left out.  Axioms: those of Coq's real numbers (`ClassicalDedekindReals.sig_forall_dec`, `sig_not_dec`, `functional_extensionality_dep`, `Classical_Prop.classic`) |
| `Ellipse*.v` | `ellipses.py` EllipseE, EllipseESoft, `galaxy.py` GalaxyShape | real numbers, same axioms; `np.linalg.svd` is an oracle with its defining equations |
| `Mix*.v` | `mixture_profiles.py` MixtureOfGaussians algebra and Fourier transform, `mp_fourier.i` zero-mean transform | real numbers, same axioms; array sharing by `copy` |
| `Spline*.v` | `splinesky.py` prior, copy, shift; prior part of `lsqr_optimizer.py` for blocks with column arrays | exact rationals; the spline (scipy) except the order of its coefficients |
| `Shift*.v` | `wcs.py`, `shifted.py`, sky and PSF shifts, `psfex.py` polynomial terms, `Image.subimage` pixels | real numbers, same axioms; sky projection, spline and rendering are oracles |
| `Multiproc*.v` | `multiproc.py` TractorMultiprocMixin.getDerivs | workers are oracles; the pool returns results in the order of its arguments |
| `Corr7*.v`, `Lanczos*.v` | `mp_fourier.i` correlate7, correlate7f, correlate7f_inout, lanczos_filter_3 | any element type with any sum and product (so rounding is covered) for the layout; exact ring for the single 7x7 sum; C ints unbounded (fewer than 2^31 pixels); filters over the real numbers, same axioms; `astrometry` `lanczos_filter` from its documentation |
| `Psf*.v` | `psf.py` lanczos_shift_image, PixelizedPSF.getPointSourcePatch (sampling 1), _padInImage | pixel values from any commutative ring; `scipy.ndimage.correlate1d`, `get_overlapping_region` from their documentation; rounding of the position is abstracted to any pixel and any remainder |
| `Mog*.v` | `utils.py` MogParams, `psf.py` GaussianMixtureEllipsePSF._getThings/_setThings/_setThing, GaussianMixturePSF.fromFitsHeader, `ducks.py` ImageCalibration.toFitsHeader/fromFitsHeader | values of any type; header values and comments are stored exactly; numpy views of the caller's array and integer arrays are not modelled; ellipse to variance is any function |
| `Approx3*.v` | `approx3.c` c_gauss_2d_approx3, `mixture_profiles.py` evaluate_grid_approx3 | brightness is any function of the pixel; C ints unbounded; derivative arrays left out; stack size of the mark rows not modelled |
| `Dense*.v` | `smarter_dense_optimizer.py` and `dense_optimizer.py`: getUpdateDirection, get_cov | any field; sqrt, lstsq and isfinite are parameters; float32 rounding, timing and get_A left out |
| `Forced*.v` | `optimize.py` _getims, _get_iv; `lsqr_optimizer.py` _lsqr_forced_photom, _lnp_for_update | any ring with an order (termination: R); unit-flux models, frozen-source model, update direction and log prior are parameters; one constant sky level per image; broadcasting of arrays with an axis of length 1 reported as an error; floating-point rounding left out |
| `Fitstats*.v` | `optimize.py` _get_umodels, _get_fitstats | any field; counts and unit-flux models of sources are parameters; a patch object is not shared between sources (it is shifted in place) |
| `GalPatch*.v` | `galaxy.py` _realGetUnitFluxModelPatch (box, mask, hybrid split, placement, source outside the mask), `psf.py` PixelizedPSF.getFourierTransform (size and centre, sampling 1) | real numbers; the inverse FFT with Lanczos shift, the convolved mixture and mixture_to_patch are parameters; np.round is any rounding to within 1/2 |
| `Heap*.v` | `utils.py` copy, setParams, freeze/thaw by index, append as operations on mutable objects that may be shared | depth bounded by a fuel argument; names and class are immutable; a raising method has no heap |
| `ClassCopy*.v` | `brightness.py` MultiBandBrightness (constructor with order, copy, Mags/Fluxes `__mul__`), MagsPhotoCal.copy; `sersic.py` SersicGalaxy.copy; `psf.py` NCircularGaussianPSF constructor, copy, hashkey, components; `utils.py` ArithmeticParams and ParamList iteration | values and flags; real numbers for brightness; attributes other than parameters are left out; Python 3 operator names |
| `Hash*.v` | `hashkey` of `utils.py` BaseParams, MultiParams; `psf.py` PixelizedPSF, HybridPixelizedPSF, `psfex.py` PixelizedPsfEx; `wcs.py` NullWCS, ConstantFitsWcs; `shifted.py` ShiftedPsf, ScaledWcs, ShiftedWcs, ScaledPhotoCal; `image.py` Image; `cache.py:25-26` | addresses (`id`) are those of live objects; string and tuple hashes are arbitrary functions, whole numbers hash as documented for 64-bit Python |
| `PsfFft*.v` | `psf.py` PixelizedPSF getFourierTransform, getImage, copy, clear_cache, _getOversampledFourierTransform, NormalizedPsf; `psfex.py` PsfExModel.at, PixelizedPsfEx getFourierTransform, getImage, shift, NormalizedPixelizedPsfEx | real numbers for floats (no float32/complex64 rounding); rfft2 from its definition; the Lanczos interpolation grid is an arbitrary function; frequency vectors left out |
| `GaussPsf*.v` | `psf.py` GaussianMixturePSF.getPointSourcePatch, NCircularGaussianPSF getRadius/getPointSourcePatch, getCircularMog with its lru_cache; `pointsource.py` getUnitFluxModelPatch (circular PSF); `mixture_profiles.py` evaluate_grid, evaluate_grid_masked, mixture_to_patch; `mix.i` c_gauss_2d_grid, eval_all_dxy_f; `gauss_masked.c` | real numbers for floats; variances with positive determinant (no inf/nan branches); the ring-growing evaluation for minval > 0 is an arbitrary function (it is modelled in `Approx3*.v`); `round` is any rounding to a nearest integer |
| `Sersic*.v` | `sersic.py` SersicMixture (tables, `__init__`, `_getProfile`), SersicIndex, SersicGalaxy.getDerivativeShearedProfiles; `galaxy.py` HoggGalaxy.getDerivativeShearedProfiles | real numbers for floats; scipy's spline is any continuous function through the nodes (its refusal of bad nodes is modelled); argsort is any sort; amplitude totals that vanish between nodes are excluded by hypothesis (they are positive at all nodes) |
| `GpuModel.v`, `GpuProps.v` | `gpu_optimizer.py` get_image_params, cache_image_params, gpu_setup_image_params, PSF padding of get_vectorized_psfs, correlate7_2d_gpu, gpu_get_unitflux_psf, gpu_one_source_models, chi-squares of gpu_one_source_try_updates | numpy only (cupy taken to be the same); pixels in any ring; positions enter as rounded pixel and remainder; stamps of galaxies are given; type assertions and float32 left out |
| `GpuSearch*.v` | `gpu_optimizer.py` line search of gpu_one_source_try_updates (step list, cut at absurd positions, choice, flags) | chi-square changes are exact (C68 is about them); extended rationals; prior and likelihood are functions of the parameter vector |
| `GpuMixModel.v`, `GpuMixProps.v` | `gpu_optimizer.py` gpu_get_unitflux_galaxy_profiles, PSF mixture padding of get_vectorized_psfs | reals; the inverse transform with an image's PSF is an oracle, assumed linear; the final sub-pixel shift is C68's; float32 left out |
| `GpuLsqModel.v`, `GpuLsqProps.v` | `gpu_optimizer.py` gpu_one_source_update: placing of stamps, parameter maps, matrix, priors, preconditioning, scattering of the solution | reals; lstsq and np.unique are parameters (any minimiser; a solver is shown to exist); stamps are C68's and C70's; float32 and the isfinite assertion left out |
| `EmModel.v`, `EmProps.v` | `emfit.i` em_fit_1d_samples_reg, em_fit_2d_reg; `emfit2.c` em_fit_2d_reg2; `psf.py` GaussianMixturePSF.fromStamp (without v2, v3); `fitpsf.py` em_init_params | reals; NaN ends a fit in `Nans`; array types, shapes and write-back left out; fitpsf.py's own em_update and emfit not modelled |
| `CompositeModel.v`, `CompositeProps.v` | `pointsource.py` SingleProfileSource; `galaxy.py` CompositeGalaxy (without derivatives), FracDev, SoftenedFracDev, HoggGalaxy and FixedCompositeGalaxy profiles and patch sizes; `devcore.py`, `sercore.py` model and unit-flux patches | reals; the rendering of one component is a function of the cutoff; extra keywords left out |
| `CeresModel.v`, `CeresProps.v` | `ceres_optimizer.py` _ceres_forced_photom; `ceres.i` ceres_forced_phot; `ceres-tractor.cc` ForcedPhotCostFunction | reals for floats (float32 copies too); the solver is a parameter that gets objective and start; the variances returned are left out |
| `CeresOptModel.v`, `CeresOptProps.v` | `ceres_optimizer.py` getDynamicScales, optimize, _ceres_opt (scaled), getBounds loop, _getOneImageDerivs use, ImageCostFunction/CeresTractorAdapter offsets; `ceres.i` ceres_opt; `ceres-tractor.cc` ImageCostFunction::_Evaluate; `utils.py` MultiParams.getGaussianPriors | reals for floats; the solver is a parameter; trajectories, callbacks and Ceres's own failure handling are left out |
| `MotionModel.v`, `MotionProps.v` | `motion.py` Parallax, PMRaDec, MovingPointSource; `tractortime.py` TAITime | reals for floats; radectoxyz written out, xyztoradec a parameter that gives the direction of its argument (both are astrometry.net's); PSF, WCS and photocal are arbitrary functions |
| `VaryPsfModel.v`, `VaryPsfProps.v` | `psfex.py` VaryingGaussianPSF, VaryingGaussianPsfEx.toFits/fromFits, CachingPsfEx, PsfExModel file and copies; `GaussianMixturePSF.fromStamp`'s use of P0 | reals for floats; RectBivariateSpline a parameter (interpolating where a theorem says so), PSF images and the fit itself parameters; a FITS file gives back what was written (the float32 of the bases, upper/lower case and trimming of names not modelled); `pnames.sort()` only reorders columns; at most nine components |
| `FastDerivModel.v`, `FastDerivProps.v` | `mix.i` eval_all_dxy(_f), `gauss_masked.c` components; `ducks.py` WCS.cdInverseAtPosition, pixelDerivsToPositionDerivs; `wcs.py` NullWCS; `galaxy.py` position differences | reals for floats; degenerate variances (zeroed components) left out; patches of one source have one extent, an image is a function of the pixel; axioms those of the reals and of the mean value theorem (`classic`) |
| `ImageModel.v`, `ImageProps.v` | `image.py` __init__, copy, getInvvar/setInvvar, toFits, getFitsHeader, readFromFits; copy, toFitsHeader and fromFitsHeader of the calibration classes of `psf.py`, `wcs.py`, `shifted.py`, `sky.py`, `brightness.py` | reals and NaN for pixels; a file is its three HDUs, data types, comments and key lengths left out; TanWcs, HybridPixelizedPSF, PsfEx and SplineSky left out; no constructor arguments ('A%i' records) in headers; axioms those of the reals |
| `SkyGridModel.v`, `SkyGridProps.v` | `splinesky.py` median_estimator, BlantonMethod | rationals and NaN for pixels; scipy's checks of the control points only; no axioms |
| `SkyOpsModel.v`, `SkyOpsProps.v` | `splinesky.py` SplineSky constructor, copy, shift(ed), offset, scale, evaluateGrid, addTo, tables; parameters via `utils.py` ParamList | reals; scipy's spline assumed to be linear in its coefficients with the four properties of `spline_library` (satisfied by `C85_library`); 32-bit rounding in tables not modelled; axioms those of the reals |
| `TanModel.v`, `TanProps.v` | `wcs.py` ConstantFitsWcs, TanWcs; `basics.py` TractorWCSWrapper; parameters via `utils.py` ParamList | reals; the tangent-plane projection is a pair of functions; Tan objects in a store, so that sharing shows; axioms those of the reals |
| `SurfModel.v`, `SurfProps.v` | `basics.py` ConstantSurfaceBrightness; pixscale_at | reals; the conversion to counts is a function of the brightness parameters; 32-bit rounding not modelled; axioms those of the reals |
| `SfdModel.v`, `SfdProps.v` | `sfd.py` bilinear_interp_nonzero, ebv, extinction | reals; array indices wrap as in numpy; conversions to galactic coordinates and pixels are functions; get_ebv, scalar arguments and reading the maps not modelled; axioms those of the reals |
| `WiseModel.v`, `WiseProps.v` | `wise/forcedphot.py` unwise_forcedphot | reals; reading of tiles, coordinates and the fit itself (a function from the list of sources to sources, inverse variances and statistics) are given; plots, saved models, broadened or pixelized PSFs and rounding to float32 not modelled; axioms those of the reals |
| `OptionsModel.v`, `OptionsProps.v` | `engine.py` __init__, __getstate__, __setstate__, optimize, optimize_forced_photometry, getDerivs, getModelPatch, getModelImage, getChiImages as far as keyword arguments go; the same of `optimize.py` forced_photometry, _get_umodels, `lsqr_optimizer.py` optimize, `ceres_optimizer.py`, `image.py` getParamDerivatives | option values of any type; what sources render is an oracle given mask and options; arrangement of derivatives, numeric derivatives and arithmetic are in EngineModel, DerivModel and ForcedModel; states of the right length with wrong entries not modelled; no axioms |
| `SdssSrcModel.v`, `SdssSrcProps.v` | `sdss.py` _get_sources for data releases 8 and 9: cuts, classification, brightnesses, shapes, returned tables | real numbers without NaN or rounding; given: band numbers, nmgy_to_mag and match_radec of astrometry.net; not modelled: reading files, data release 7, classmap and ellipse arguments, printing |
| `SdssBrightModel.v`, `SdssBrightProps.v` | `sdss.py` SdssBrightPSF.getBrightPointSourcePatch, SdssPointSource.__init__, getModelPatch | real numbers; positive tolerance; given: the ordinary PSF patch, pixel position and noise; not modelled: copy, inherited derivatives |
| `SdssImgModel.v`, `SdssImgProps.v` | `sdss.py` get_tractor_image_dr8, _get_tractor_image_dr8, SdssWcs.positionToPixel, pixelToPosition | real pixel values, rational coordinates; given: what astrometry.net returns (frame, asTrans, psField, fpM) and the result of em_fit_2d; setMaskedPixels assigns to the masked pixels inside the region; not modelled: float32, plots, colour, the info dictionary |
| `GpuPickModel.v`, `GpuPickProps.v` | `gpu_optimizer.py` GpuFriendlyOptimizer, GpuOptimizer.__init__, set_cp, pickling, _gpu_checks; `lsqr_optimizer.py` optimize with variance | solvers and line searches are parameters (C71, C69 and others are about them); objects are numbers; rational parameters; not modelled: logging, timing |
| `EvalModel.v`, `EvalProps.v` | `mixture_profiles.py` evaluate_1/2/3, evaluate_grid_approx; `mix.i` eval_g, eval_all, c_gauss_2d, c_gauss_2d_approx2 | dimension two; real numbers for floats; the rings are those of Approx3Model with minradius 0; lround is any rounding to a nearest integer; not modelled: c_gauss_2d_approx (no caller) |
| `SurveyCalModel.v`, `SurveyCalProps.v` | `sdss.py` SdssWcs; `cfht.py` CfhtLinearPhotoCal, CfhtPhotoCal; `sdss_dr7.py` SdssMagsPhotoCal | AsTrans is its dictionary of values with any functions of it; real numbers; sdss_dr7.py modelled as if it imported BaseParams and np; not modelled: parse_head_file, SdssFluxPhotoCal (one multiplication) |
| `WiseCatModel.v`, `WiseCatProps.v` | `wise/wisecat.py`, `wise/allwisecat.py` | real numbers, no NaN; files are what fits_table reads; given: the WCS's bounds, scale and radec2pixelxy |
| `UnwiseModel.v`, `UnwiseProps.v` | `wise/unwise.py` (all but plots) | real pixel values, rational pixel coordinates; files are what is read from them; given: the median, distances on the sky and the intersection of polygons |
| `RebinModel.v`, `RebinProps.v` | `sdss.py` scale_sdss_image; `shifted.py` ScaledPhotoCal, ScaledWcs; `psf.py` GaussianMixturePSF.scaleBy | real pixel values; constant sky; pixel values of models as in `GaussPsfModel.v`; both meanings of `/` on ints |
| `OdictModel.v`, `OdictProps.v` | `ordereddict.py` | Python 2 (the module's imports exist only there); keys with decidable equality; a heap of list nodes, never freed; DictMixin's methods modelled from its source; no change during iteration |
| `NpParamsModel.v`, `NpParamsProps.v` | `utils.py` NpArrayParams | two axes (one: a single row), C or Fortran order, ravel() a view exactly if C-contiguous; entries of any type; step sizes and priors as for ParamList elsewhere, not repeated |
| `GalProfModel.v`, `GalProfProps.v`, `GalMixProps.v` | `galaxy_profiles.py`, the tables of `mixture_profiles.py`, profiles and nre of `galaxy.py` | reals; one-axis arrays and numbers; the numerical bounds are proved with the Interval library, so that besides the axioms of the reals these theorems rest on Coq's primitive integers and floats: the operations of `PrimInt63`, `PrimFloat` and their specifications in `Uint63` and `FloatAxioms` |
| `SersicLawNum.v`, `SersicLawProps.v` | the tables of `sersic.py` through the profile model of `SersicModel.v` | reals; splines as in `SersicModel.v`, the core spline increasing; numerical bounds with the Interval library; the law is compared at integer and half-integer indices from 1/2 to 6 |
| `SextModel.v`, `SextProps.v` | `source_extractor.py`, `_dr7_getBrightness` of `sdss_dr7.py` | reals or NaN, no infinities; the local variables kept between rows are state |
| `StateModel.v`, `StateProps.v` | `getParamStateRecursive` of NamedParams and MultiParams, the comparisons of ScalarParam with `functools.total_ordering` | objects as in `ParamsModel.v`; values are rationals, infinities or NaN |
| `RoundModel.v`, `RoundArith.v`, `RoundImgProps.v`, `RoundLikProps.v`, `RoundModProps.v` | the integral image, chi image, log-likelihood and model image again, with rounded arithmetic | every operation rounds to nearest even in binary32 or binary64 (Flocq); no overflow, infinities or NaN; numpy's sum is any tree of additions. The counterexamples run on Coq's primitive floats (`PrimFloat` float, add, sub, mul, eqb, ltb) or Flocq's binary32 |
| `OverPsfModel.v`, `OverPsfProps.v` | `psf.py` PixelizedPSF with sampling other than 1 (native sizes, `_sampleImage`, `_getOversampledPointSourcePatch`), NormalizedPsf `_sampleImage`; the early exit of `pointsource.py` | real numbers; the Lanczos interpolation of astrometry.net is any function of stamp and position; Python's `round` is any rounding to a nearest whole number |
| `WrapModel.v`, `WrapProps.v` | `shifted.py` ParamsWrapper with the methods inherited from `utils.py` BaseParams; MultiParams with such members | objects as in `ParamsModel.v`; copying a wrapper is in `ImageModel.v`, what it draws in `ShiftModel.v`; priors left out |
| `RoundDerivModel.v`, `RoundDerivProps.v` | `pointsource.py` and `galaxy.py` steps of brightness and position, `engine.py` getDerivs for images, `LinearPhotoCal` | arithmetic as a parameter (Flocq's rounding, or primitive floats); one pixel; renderings as functions with a Lipschitz constant; the extent of patches and missing patches are in `DerivModel.v` and `PatchModel.v` |
| `FitModel.v`, `FitProps.v` | `optimize.py` and `constrained_optimizer.py` tryUpdates, `lsqr_optimizer.py` getLinearUpdateDirection, optimize, optimize_loop, stepping for derivatives, all on the trees of `ParamsModel.v` and with evaluations that may raise at any time | log-probability, rendering and linear algebra are oracles that do not write parameters (C34); directions have the right length, so that setParams does not fail half-way; what an optimizer remembers is in the stopping rule |
| `SetupModel.v`, `SetupProps.v` | `optimize.py` forced_photometry up to the fit, _get_umodels, on sources of `CompositeModel.v` with frozen parameters, images of `EngineModel.v` | real numbers, same axioms; constant skies, linear photocals, every brightness has the band of every image; unit-flux rendering is an oracle |
| `ForcedFitProps.v` | `ForcedModel.v` once more, over the real numbers: the fluxes reached are optimal and the inverse variances are the curvature | the update direction is assumed to be an exact least-squares solution (the layout and the objective of the code are C33); no damping, priors, minimum flux or regions of interest |
| `AgreeProps.v` | `LsqModel.v` and `DenseModel.v` together: the updates of the three optimizers compared | the sparse system without column scaling (with it: C33_scaling); exact arithmetic and exact least-squares solvers; no damping |
| `RoundStepProps.v` | the steps of `OptimModel.v` with rounded operations (round to nearest even, any precision and least exponent) | no overflow and no infinities or NaNs; step fractions not negative; the smallest fraction tried is a normal number |
| `MaskedProps.v`, `MaskedForcedProps.v` | the masked pixels of `EngineModel.v`, `LsqModel.v`, `OptimModel.v` (default optimizer) and `ForcedModel.v` | LSQR, or for forced photometry the update direction, is a function of the values of its inputs; dense and constrained optimizers not considered |
| `OrderProps.v` | the order of the members of groups and of images in `ParamsModel.v`, `PriorModel.v`, `LsqModel.v`, `EngineModel.v`, `OptimModel.v` | exact arithmetic; no column scaling, no shared parameters; that LSQR finds the solution (unique if the parameters are independent) is a hypothesis on the direction |
| `UnitsProps.v` | units of images and a common factor of the errors in `EngineModel.v`, `LsqModel.v`, `PriorModel.v`; fits from a perfect model in `OptimModel.v` | exact arithmetic; no column scaling, no shared parameters (C121); in floating point factors that are powers of two are exact, others are not |
| `FreezeProps.v`, `FreezeMaskProps.v` | freezing in `ParamsModel.v` against the systems of `PriorModel.v` and `LsqModel.v` | exact arithmetic; no column scaling, no shared parameters; the derivatives of the frozen fit are those of the free parameters in the unfrozen fit |
| `LinearProps.v`, `LinearUniqueProps.v` | the fit of linear models: `LsqModel.v`, `PriorModel.v`, `EngineModel.v` and `OptimModel.v` together | exact arithmetic; no column scaling, no parameter limits; the direction of the first step is assumed to solve the system (LSQR itself is not modelled) |
| `HybridModel.v` | `psf.py` HybridPixelizedPSF 600-656, PixelizedPSF 68-135 (constructor, copy, attributes) | attribute lookup on a heap of objects; names with double underscores left out; the Gaussian PSF is an opaque value with its copy a parameter; the EM fit of Gaussians not modelled; the wrapped PSF is a PixelizedPSF (not a PsfEx) where it is shifted or copied |
| `CutProps.v` | no new code: `Image.subimage` pixels (`ShiftModel.v`), log-likelihood and least-squares systems of `MaskedProps.v`, `LsqModel.v` | the derivatives of the parts are taken to be the parts of the derivatives (true for `on_parts`, the same patches moved); whether a PSF model or a modelMask gives the same pixels for a part is not claimed (C53, C55 treat the coordinates) |
| `TrimProps.v` | no new code: as `CutProps.v` | derivatives of what remains are the parts of the derivatives of the whole (`without`, `trim_moved` are such) |
| `CoaddProps.v` | no new code: as `CutProps.v` | the coadd is given by its defining equations, with inverse errors whose squares add up exactly (rational numbers, no rounding) |
| `DropProps.v` | no new code: as `TrimProps.v` | - |
| `EdgeProps.v` | no new code: as `TrimProps.v` | - |
| `JoinProps.v` | no new code: as `CoaddProps.v` | - |

## Findings (where the code violates the property)

Each has a theorem named `…_refuted` (or the one given) with a concrete
witness, and usually a positive theorem under the extra condition.

- C02 `ParamList.setParams` accepts vectors that are too long.
- C07 `Catalog` member names are not reachable by recursive freezing.
- C10 `ParamList.copy` drops bounds and step limits.
- C12 `setStepSizes` after freezing raises.
- C14 prior rows point at the wrong column once a list entry is frozen.
- C17 `clipTo` returns True without overlap.
- C19 arithmetic with a patch without data raises.
- C21 `getPixelIndices` wraps in int32 for images of 2^31 pixels or more.
- C22 empty patches overlap; negative pixels do not count as overlap.
- C25 a masked pixel that holds NaN makes the likelihood NaN.
- C26 an image object listed twice always uses the first mask.
- C27 overwriting a held key is not a use, may evict another key; capacity 0 raises.
- C28 cached models survive a change of mask; disabled cache ignores `minsb`.
- C30 a start outside the bounds takes a step beyond the step limit.
- C31 `last_step_hit_limit` is stale after a failed step.
- C32 `optimize_loop(steps=0)` raises UnboundLocalError.
- C35 with column scaling (the default) shared parameters get different
  updates; IndexError when the last parameter has no derivatives; variances.
- C48 a Sersic galaxy that does not render returns one derivative too many,
  which moves the core-brightness derivative of `SersicCoreGalaxy` by one;
  `FixedCompositeGalaxy` with frozen brightness and a thawed shape returns too
  many derivatives, in the wrong places.
- C54 (not a theorem) `Image.getParamDerivatives` takes no keyword arguments,
  so `getDerivs` raises TypeError when `model_kwargs` is set and images are thawed.
- C40 a box without pixels (x0 = x1) passes `symm_intimg_rect`'s own assertion
  and then raises AssertionError in `intimg_rect`.
- C41 an explicit `roi` is returned unchecked (it may lie outside the image);
  a negative half-size gives a reversed region instead of being refused.
- C43 a round ellipse has no softened form (ZeroDivisionError); `GalaxyShape`
  documents its angle as east of north but its basis puts the major axis at
  minus that angle; `fromCovariance` mirrors the ellipse when the singular
  vectors form a rotation.
- C44 `apply_affine` and `apply_shear` do not apply the matrix to the means.
- C47 with column scaling (the default) the rows of the spline sky prior make
  `getUpdateDirection` raise ValueError (truth value of an array); frozen
  coefficients are not left out; a copy (hence a subimage) loses the prior; on
  grids with W different from H the prior compares coefficients that are not
  neighbours (the coefficients are stored column by column).
- C53 `NullWCS.shifted` ignores the shift and drops offset and pixel scale;
  shifted, scaled and wcslib coordinates cannot be shifted again;
  `ScaledWcs.cdAtPixel` multiplies y by the factor instead of dividing;
  `ShiftedPsf` raises AttributeError with a model mask (`ModelMask` has no
  `patch`); a stamp half way between pixels can move by a pixel in a subimage;
  a negative corner of `subimage` takes pixels from the far edge.
- C52 as shipped the pooled `getDerivs` always raises (`self.mp` is never
  stored; `logverb`, `Patch`, `np`, `Images` are not imported); without thawed
  sources a finite-difference image derivative raises UnboundLocalError.
- C50 with a mask the picture extends up to 3 pixels beyond the stamp (the
  Lanczos wings), without one it stops at the stamp; `radius` at or above half
  the stamp loses its last row and column; `derivs` is ignored without a mask.
- C51 a mixture reports no bounds and no step limits at all (empty lists), so
  those of the next members of a group move forward.
- C56 `toFitsHeader` zips the names of the thawed parameters with all values:
  with a frozen parameter the last values are lost and the comments are wrong;
  only 100 values are read, so a mixture of 17 or more components raises.
- C45 the reported box misses rendered pixels of tilted thin sources; only
  pixels reached by an outward walk are rendered (a hook-shaped source is cut);
  a box of width or height one at negative coordinates with no positive edge
  value, or an empty box, starts (and writes) outside the array, because C
  division rounds toward zero.
- C36 the compact dense optimizer raises RuntimeError when two derivatives of one
  image cover different boxes, and KeyError when the only derivative of an image
  lies right of or above it; both dense optimizers let a second derivative of
  one parameter in the same image overwrite the first (while the column scale
  adds both); `get_cov` without column scaling returns a zero matrix; the default
  `shared_params=True` raises RuntimeError; with nothing to fit the compact
  optimizer returns None and the dense one `[]`.
- C37 forced photometry with fitted sky: after the line search the sky levels are
  set with the last fraction tried, the fluxes with the best one, so the result
  can be less likely than the start while a better log-likelihood is reported.
  With regions of interest `im = ie[roi]` replaces the data by (twice sliced)
  inverse errors, so the result does not depend on the data. During the line
  search priors are evaluated at the old fluxes. If no direction is found and
  there are regions, `tractor.images` stays replaced by the sub-images. Fluxes that
  start below the minimum stay there when no step is accepted, although the
  model is rendered with the minimum.
- C38 `_get_iv` with fitted sky and `skyvariance=True` always raises ValueError
  (`skyderivs` holds lists of pairs that are unpacked as pairs).
- C57 fit statistics slice with the unclipped patch corner: a unit-flux model that
  begins at a negative position selects an empty (or wrong) slice, so the source
  gets no statistics and its model stays in the shared work array and is counted
  for the next source. `src = catalog[si]` counts over the whole catalog while
  `si` counts fitted sources, so a frozen source before them supplies the
  counts. A source with all pixels masked gets masked fraction 0 (not about 1).
- C59 with a pixelized (not hybrid) PSF a galaxy whose centre is outside its model
  mask but nearer than its radius cannot be rendered: RuntimeError('sourceOut,
  not hybrid'). This includes a centre on the last half pixel of the mask
  (`px > x1 - 1`). `force_sourceOut` does not help: it only removes the early
  return of None. A binary mask is honoured by the Gaussian part only; the FFT part
  fills the whole rectangle.
- C10 `MultiParams.copy` raises AttributeError for a group with a None member.
- C10 an object put twice into a group is set twice by setParams: the last value
  wins and the parameter vector read back is not the one set.
- C61 `MultiBandBrightness.copy` (`self * 1.`) and `SersicGalaxy.copy` lose frozen
  flags: a frozen band or member is free in the copy. The copy of a brightness also
  shares its `order` list with the original.
- C61 `NCircularGaussianPSF.copy` and `hashkey` iterate over the sigmas and weights,
  which skips frozen entries: after freezing recursively the copy has no components
  at all, with unequal numbers frozen it fails an assertion, and PSFs of different
  widths have equal hash keys (so cached models are wrong).
- C62 `1 - p` is computed as `p - 1` (`__rsub__ = __sub__`); division is defined only
  under the Python 2 names, so `/` raises TypeError in Python 3.
- C63 the cache is indexed by `hash(key)`, not by the key (`cache.py:26`). In Python
  `hash(-1) == hash(-2)`, so a parameter that moves from -1 to -2 (a position, a flux, a
  magnitude) keeps its cache entry and the old model is returned.
- C63 keys lack: the Gaussians of a hybrid PSF (its key is that of its pixelized PSF), the band names of a brightness and the band of a calibration
  (`NanoMaggies(g=5)` and `NanoMaggies(r=5)` have equal keys); the shape and sampling of
  a pixelized PSF and whether it is normalised; everything about a `PixelizedPsfEx` built
  in memory (every copy and shifted model has the key `('PixelizedPsfEx', None, 1)`); the
  pixel scale of `NullWCS`.
- C64 an oversampled `PixelizedPsfEx` (sampling other than 1) Fourier-transforms its first
  basis image only: `_getOversampledFourierTransform` samples `self.img`
  (`psf.py:287-288, 356`), which `PixelizedPsfEx.__init__` sets to `bases()[0]`, although
  the comment at `psfex.py:483-486` says the model is evaluated. Galaxies are rendered with
  a constant PSF, point sources with the varying one.
- C64 `NormalizedPsf.getFourierTransform` divides by the absolute value of the sum,
  `getImage` divides the stamp itself by the sum: for a stamp of negative sum the sign of
  the transform depends on whether an image was asked for before.
- C64 `PixelizedPSF.copy` drops `sampling` (and `Lorder`): the copy of an oversampled PSF
  treats its stamp as native pixels.
- C65 the weights of `NCircularGaussianPSF` are documented to be normalised to total mass
  1 and never are: c times the weights give c times the stamp. (`applyTo` does divide by
  their sum.)
- C65 `NCircularGaussianPSF.getPointSourcePatch` moves the mean of a mixture object shared
  through `lru_cache` and puts it back only if rendering succeeds. If rendering raises (for
  example a `fixedRadius` that is a float, which numpy refuses as an array size), every PSF
  with the same sigmas and weights renders shifted sources afterwards.
- C66 the Sersic tables do not join at index 0.57: the comment says that the first row of
  the 0.57-0.62 range repeats the last row of 0.51-0.57, but the amplitudes of another fit
  were kept. The mean variance drops by 0.0014 there, against the trend of 0.005 per 0.01;
  a derivative stepped across 0.57 with the default step is off by about a quarter. At 0.51
  the rows differ in the sixth digit.
- C68 `GpuOptimizer.cache_image_params` does nothing when frames are kept already (it calls
  `get_image_params`, which returns the kept ones), so without `clear_cached_image_params`
  another tractor is measured against the old images. It also never returns True.
- C68 in kept frames a moved source loses taps of the sub-pixel shift within three pixels of
  the frame's edge; without kept frames the check of how far a step moves is skipped, and
  weighted pixels can lose the model altogether. Only the extent of a model mask is used, not
  its mask array.
- C69 the GPU line search differs from the CPU's in four ways: a step shortened by a bound
  sets `stepLimited` (so `optimize_loop` uses the other threshold); the test for an empty
  list of steps can never hold, since the start is prepended, so the limit flags are not
  set; from a start with log-prior -inf all changes are NaN, no step is taken, and the NaN
  gain keeps `optimize_loop` going to its last iteration; `check_step` is swallowed.
- C70 `gpu_get_unitflux_galaxy_profiles` raises AttributeError when all amplitudes of the batch
  are zero (no stamp is made, `G` stays None).
- C71 `gpu_one_source_update`: the flux columns lack the photometric scale (only the background
  column has a FIXME about it), so with a LinearPhotoCal of scale 3 the step can make the fit worse
  (C71_zeropoint_refuted).
- C71 an image whose band is not a thawed flux of the source, or a prior on the flux of a band
  without images, raises KeyError (C71_band_refuted, C71_prior_refuted).
- C71 a prior of several rows on one parameter: the column index is overwritten and looked up again
  for each row, so later rows go to another parameter or raise KeyError (C71_prior_rows_refuted).
- C71 with the brightness frozen its bands are still counted: IndexError (C71_frozen_refuted).
- C71 `get_A=True` returns a zero matrix: `sA[goodrows,:][:,I] = ...` writes to a copy
  (C71_matrix_refuted). The fall-back for clipped positions drops `get_A` and returns only the vector.
- C72 pixels more than ten standard deviations from every component are left out of a step: their
  flux is missing in the amplitudes and the likelihood can fall (C72_far_refuted). The theorems give
  what holds over the pixels that are reached.
- C72 `fromStamp` divides by the sum and then clips at zero, so with negative pixels the PSF's flux
  is above one (C72_negative_refuted; C72_stamp gives the exact flux).
- C72 a component without flux near it becomes 0/0 and the fit returns NaN for it with result 0
  (C72_nan_refuted).
- C72 with alpha = 0, fromStamp's default, flux on a line gives a singular variance; the fit returns
  -1, which fromStamp ignores, and the PSF has a singular variance (C72_singular_refuted).
- C72 the arrays in P0 are overwritten. `fitpsf.emfit` uses `np.array(zip(...))`, which fails in
  Python 3, and normalises the caller's image in place (read, not modelled).
- C73 negative pixels count as sky with the opposite sign: the model's total is the image's total
  plus twice the negative flux (C73_excess). With a negative total the sky starts negative and a
  component can get more flux than the image has (C73_dark_refuted).
- C74 CompositeGalaxy, DevCoreGalaxy and SersicCoreGalaxy drop an explicit `minsb=0`: each component
  then uses the image's `modelMinval` in full, so the error can be twice that (C74_zero_refuted).
  A single-profile source honours it.
- C74 DevCoreGalaxy and SersicCoreGalaxy do not take the extra keywords that Tractor passes on from
  `model_kwargs`, so they raise TypeError there (read, not modelled).
- C75 `FracDev.derivative()` is 1 also where the fraction is clipped and does not move
  (C75_frac_derivative_refuted).
- C75 FixedCompositeGalaxy's box is neither limited to the image nor rounded, and its PSF radius is
  added where HoggGalaxy takes the larger of the two (read). A NaN fraction takes neither branch and
  ends in IndexError.
- C76 Forced photometry with Ceres and `nonneg=True` always fails once there is something to fit:
  the first run's return value is a dict (`Py_BuildValue`, ceres.i:265) and the code asserts that it
  equals 0 (C76_nonneg_refuted).
- C76 Parameters that no image has a model for are set to 0 by the fit instead of keeping their
  values (C76_unused_refuted).
- C76 With the sky fitted, `result.ims0` and `ims1` are wrong: `_getims` is given all parameters, sky
  levels first, and reads them as the fluxes (C76_ims_sky_refuted).
- C76 `CeresOptimizer.__init__` ignores its arguments BW and BH and always takes 10 (read).
- C77 `MultiParams.getGaussianPriors` numbers the parameters of a ParamList including frozen ones, so
  once one is frozen the prior acts on another parameter (C77_prior_frozen_refuted).
- C77 With `numeric=True` the inner loop reuses `i`: only the first image is fitted, or the loop never
  ends when there are more images than parameters plus one (C77_numeric_refuted).
- C77 `CeresOptimizer.optimize` with nothing thawed raises TypeError, None being subscripted
  (C77_empty_refuted).
- C77 A parameter that has no pixel in an image leaves its Jacobian unwritten instead of zero
  (C77_no_pixel_refuted).
- C78 `MovingPointSource.copy()` raises AttributeError: its constructor skips PointSource's, which sets
  `fixedRadius`, and PointSource.copy reads it (C78_copy_refuted). With the attribute set by hand the
  copy has epoch 0 and a Parallax inside a Parallax (C78_copy_epoch_refuted).
- C78 An image without a time (the default) makes a MovingPointSource raise TypeError
  (C78_no_time_refuted).
- C78 The prior of ParallaxWithPrior grows without bound towards parallax 0, which is legal
  (C78_prior_unbounded_refuted).
- C79 Where the PSF draws nothing (None, as PixelizedPSF does outside the model mask),
  getParamDerivatives raises TypeError; PointSource returns None per parameter
  (C79_off_image_refuted).
- C80 With the default psfClass, GaussianMixturePSF, the grid fit raises ValueError at the second grid
  point: it passes the flat list of 6 K parameters as P0, and fromStamp unpacks P0 as three arrays
  (C80_default_class_refuted). GaussianMixtureEllipsePSF takes the list.
- C80 CachingPsfEx truncates towards zero, so positions just below 0 get the PSF of the cell above 0
  (C80_cell_negative_refuted).
- C80 CachingPsfEx.fromPsfEx copies `radius` as None, so getRadius() gives None rather than 25
  (C80_from_radius_refuted), and of a PSF not fitted yet it makes one that raises AttributeError
  (C80_from_unfitted_refuted).
- C81 fromFits asserts that the type is 'tractor.psfex.PsfEx', but toFits writes the new name of the
  class, so no file comes back (C81_type_refuted); files with the old name end in NameError, as
  GaussianMixtureEllipsePSF is not imported (C81_import_refuted); and past that the PSF has to be told
  to make its splines, or it raises AttributeError (C81_loaded_lazy_refuted).
- C81 A copy of a PsfExModel has no `fwhm`, so writeto raises AttributeError (C81_copy_refuted).
- C82 With NullWCS positions are pixels but the CD matrix is in degrees, so fast position derivatives
  (those of all galaxies, and of point sources with masks or a minimum value) are 3600 / pixscale times
  too large (C82_null_refuted).
- C82 For RA, Dec positions the derivative with respect to RA is the one with respect to RA cos(Dec),
  so it is too large by 1 / cos(Dec) (C82_radec, C82_ra_refuted: twice at Dec = 60).
- C82 The position derivatives of galaxies are zero in the outermost rows and columns of the patch
  (C82_galaxy_edge_refuted), also where the patch ends because of a mask.
- C13 Parameter lists that are made without values (MogParams, hence Gaussian mixture PSFs, TanWcs) have
  empty lists of bounds and step limits, so in a group the bounds of later members move to the
  parameters of the mixture (C13_detached_list_refuted).
- C83 Images with LinearPhotoCal, MagsPhotoCal, FluxesPhotoCal, ConstantFitsWcs, PixelizedPSF or
  NCircularGaussianPSF can be written to FITS but not read: fromFitsHeader calls the constructor without
  the arguments it needs (C83_required_args_refuted).
- C83 A NullWCS comes back from a copy or a file without its offset and pixel scale, so positions move
  (C83_copy_refuted, C83_null_wcs_refuted).
- C83 Image.copy thaws all calibrations and drops the plotting range and modelMinval (C83_copy_refuted);
  it fails for images without PSF or errors. Files also lose the name, the time, and the signs of the
  inverse errors (C83_fits_loses_refuted, C83_fits).
- C83 toFits changes the header it is given: when one header is used for two images, parameters of the
  first (e.g. more PSF components) are read as parameters of the second (C83_reused_header_refuted).
- C84 BlantonMethod with mask=None ("None for no masking") always fails: msk is unbound
  (C84_no_mask_refuted).
- C84 Where all pixels around a control point are masked the sky there is 0 instead of being
  interpolated or refused, pulling the spline to zero (C84_all_masked_refuted).
- C84 gridsize 2 and 3 (two equal control points) and images smaller than two half boxes fail inside
  scipy (C84_sizes_refuted).
- C85 Tables hold positions of control points and offsets as integers: others are truncated and the sky
  drawn changes; all parameters are thawed (C85_table_refuted, C85_table_general).
- C86 After the cd parameters of a TanWcs are changed, cdAtPixel, cdInverseAtPixel and pixel_scale still
  give the old matrix while positions use the new one (C86_cd_stale_refuted).
- C86 Two TanWcs made from one Tan share it (C86_shared_refuted); x0, y0 and crpix have the same effect,
  both are thawed by default and x0, y0 have no names (C86_degenerate_refuted); the hash key does not change
  with the parameters of the Tan (C86_hash_refuted); lists of bounds are empty (C86_bounds_refuted).
- C87 Subimages of an image with a NullWCS lose its pixel scale, so the brightness per pixel changes
  (C87_subimage_refuted); WcslibWcs and wrapped coordinate systems fail with AttributeError
  (C87_wrapped_refuted).
- C88 Within half a pixel of the left or bottom edge of a dust map (accepted by the checks of ebv) index -1
  wraps around: the opposite edge of the map is mixed in with a weight up to one half (C88_wrap_refuted,
  C88_wrap_rows_refuted).
- C89 unwise_forcedphot marks tiles as nearest also for sources that are only in the margin of their image:
  where images are cut to a region such a source is not measured at all (flux and inverse variance 0) if the
  other tile, on which it is, comes later, but is measured if it comes first (C89_region_refuted).
- C89 If the nearest tile has no dates or no fit statistics, those of a tile measured earlier are
  reported with its flux (C89_mixed_refuted).
- C90 Pickling a Tractor drops model_kwargs: the unpickled object raises AttributeError when rendering a source,
  in getDerivs, optimize and optimize_forced_photometry (C90_pickle_refuted).  This also affects the objects sent to
  worker processes.
- C90 getDerivs does not give the Tractor's own options to the sources (engine.py:329 passes kwargs, not kw), though
  their models are rendered with them: derivatives and models disagree (C90_derivs_refuted).
- C90 With thawed images any option makes getDerivs raise TypeError, as Image.getParamDerivatives takes none
  (C90_thawed_images_refuted).
- C90 A minsb among the Tractor's own options is always overridden, by None in model images and 0 in chi images
  (C90_minsb_refuted).
- C90 Options given to optimize() reach no rendering (C90_optimize_call_refuted); with LsqrOptimizer forced photometry
  never works with a rendering option (C90_forced_refuted).
- C91 _get_sources documents that extrabands start at the SDSS flux of the first of "bands"; with any SDSS band they
  start at zero flux or the bad magnitude (C91_extra_refuted), and with none, as magnitudes, only the first of them
  starts at the flux of bandname (C91_extra_only).
- C91 With getobjs, getobjinds or getsourceobjs, a region without objects gives None for all three even if the table
  has rows (C91_none_refuted); a region with objects none of which is classified as star or galaxy raises IndexError,
  as an empty list makes an index array of floats (C91_unclassified_refuted).
- C91 The caller's table is changed in place (the docstring warns): used a second time, every galaxy comes out turned
  the other way (C91_twice_refuted).
- C92 SdssPointSource.copy raises NameError always (pos and bright are not defined, sdss.py:118-119; not modelled).
- C92 thresh2 == thresh passes the constructor's assertion, but every source with counts from there on raises
  ZeroDivisionError (C92_equal_refuted); a model mask makes getModelPatch fail (C92_mask_refuted).
- C92 The radius is cut at 200 pixels: brighter stars lose wings above the tolerance (C92_radius has the condition).
- C93 Regions by position are computed before the half-pixel shift of the coordinate system: the region around a
  position is off by up to one pixel, always to the same side, and with half-size 0 does not contain it
  (C93_position_refuted); a region for ranges of positions may not contain their corner (C93_box_refuted).
- C93 invvarAtCenterImage without a region makes no image: TypeError if a pixel is masked, otherwise the weight stays
  one number and nothing is masked (C93_constant_image_refuted).
- C93 With the SDSS reader as fifth positional argument, a failure is replaced by a ValueError and nothing is fetched
  again (C93_retry_refuted).  A pixelized PSF of zeros ends in IndexError (C93_trim).
- C94 A single source without model masks is not fitted at all by GpuOptimizer, without an error (C94_no_masks_refuted);
  a background's own masks are ignored when there is a source (C94_background_refuted).
- C94 GpuOptimizer ignores damp, scale_columns and shared_params, which the parent class refuses; variance=True ends in
  ValueError, with two parameters in TypeError or one number in place of the variances (C94_options_refuted).
- C94 With the source frozen in the catalogue and the background thawed, the background moves by numbers computed for
  the source (C94_frozen_source_refuted).
- C94 Made with a module in place of its name, GpuOptimizer fails at first use (cp.get) unless another one was made by
  name, and always after unpickling (cp is None) (C94_module_refuted).
- C95 evaluate_grid_approx renders only what is connected to one start pixel: of two stars with a dim gap between them
  the second is zero, whatever its brightness (C95_two_stars_refuted).
- C95 A mixture without positive amplitudes is rendered at the corner of the box and its neighbours only (C95_negative).
- C96 SdssWcs.pixscale_at is in degrees per pixel, where ducks.py promises arcseconds and galaxies, patches and surface
  brightness use it so: wrong by 3600 (C96_pixscale_refuted).
- C96 SdssWcs: setConstantCd at another pixel keeps the first matrix, as do parameter changes (C96_constant_refuted);
  copy raises TypeError and there are three bounds for twenty parameters (C96_copy_refuted); setStepSizes has no effect
  (C96_steps_refuted); objects made from one AsTrans change together (C96_shared_refuted); with a colour, pixels do not
  go back (C96_color_refuted).
- C96 CfhtPhotoCal.setParam and SdssMagsPhotoCal.setParam do not return the old value: after one derivative the
  parameter is None (C96_derivative_refuted); a CfhtPhotoCal's hash key lacks the band (C96_photocal_hash_refuted); a
  CfhtLinearPhotoCal made without a header and a SdssMagsPhotoCal cannot be copied (C96_photocal_copy_refuted).
- sdss_dr7.py cannot be imported: BaseParams is not defined in it (also needed by sdss.py for release DR7).
- C97 the catalogue readers do not wrap RA: a box across RA = 0 loses sources however it is written
  (C97_wrap_refuted; the code warns only if r1 - r0 > 180). An image around a pole loses the pole if
  radec_bounds looks at corners or edges only (C97_pole_refuted; radec_bounds is not in this repository).
- C98 `unwise_tiles_touching_wcs` raises IndexError instead of returning an empty table when no tile overlaps
  the image (C98_no_tile_refuted; `np.array([])` is no index). In a region without exposures the noise level
  `sig1` is NaN (C98_no_exposures_ex).
- C99 In Python 3 `scale_sdss_image` always raises TypeError: the sizes `H / S`, `W / S` are floats
  (C99_python3_refuted). The theorems about its result hold with integer division.
- C99 `ScaledWcs`, `ShiftedWcs` and `WcslibWcs` have no cdInverseAtPixel (they derive from ImageCalibration, not
  ducks.WCS), which rendering of galaxies needs: AttributeError (C99_galaxies_refuted).
- NpArrayParams (C101): writes are lost without an error when the array is in
  Fortran order (a transposed array passed to the constructor), since
  `self.a.ravel()` is then a copy; getLowerBounds, getUpperBounds and
  getMaxStep return [] (ParamList.__init__ is called without values), so in a
  group the bounds of later members stand against the wrong parameters; and
  copy() raises TypeError unless there is exactly one entry.
- GaussianGalaxy (C103): its "effective radius" is the width sigma, inside
  which lies 39 per cent of the light, not a half; the exponential and de
  Vaucouleurs types have 51 and 53 per cent inside re.
- Sersic profiles (C104): the flux inside the effective radius is 50 per cent
  only near index 0.5; it is 51 at index 1.1, 53 at 4 and 56 at 6, where half the
  light is inside 0.8 effective radii. The tables are fits to the law out to a
  few radii, normalized to unit flux, so that the profile is brighter than the
  law of the same flux by 1.5 per cent at index 1, 6 at 4 and 12 at 6.
- SourceExtractor catalogues (C105): a row with a NaN disk or spheroid magnitude
  whose other component is bright enough raises UnboundLocalError, or takes the
  shape of that component from an earlier row and has NaN flux. A row that the PSF
  fits better but whose PSF magnitude is beyond the limit becomes a galaxy if one
  of its model magnitudes is within it. `_dr7_getBrightness` raises NameError (no
  numpy import) for every band, and stores extra bands under the key "b".
- The report of what is frozen (C106): a None member at any depth, which the
  other methods skip, makes `getParamStateRecursive` raise AttributeError. The
  column the documentation calls "Thawed(parent)" is False for a frozen entry of a
  list though its parent is thawed. An entry without a declared name is numbered
  by its index there, and among the thawed ones in `getParamNames`.
- Comparing scalars (C107): with a NaN on either side `>` and `>=` are true, both
  ways round, because `functools.total_ordering` derives them from `<`. Comparing
  with None or a number raises AttributeError, for `==` and `!=` too.
- Integral images in floating point (C108): the sum of a box of pixels that are
  not negative can be negative (-5.6e-17 for 0.1, 0.1, 0.2 and an empty corner).
  Whole counts are exact only while twice the total fits the mantissa: with a total
  of 2^52 + 2 in float64 an empty box can read 1.
- The likelihood in floating point (C109): a worse fit can get the higher
  log-likelihood when the two differ by less than the rounding. With float64 chi
  images the square of a misfit can underflow, so that a likelihood of 0 does not
  mean a perfect fit; with float32 images it does.
- The model image in float32 (C110): the order of the catalogue changes the model.
  Sources of 2^24, 1 and 1 counts give 2^24 or 2^24 + 2.
- Oversampled PSFs (C111): a normalised PSF is normalised over the model mask, so that
  a mask of one pixel gets the light of the whole star. A radius loses the last row and
  the last column. The radius of the PSF is in stamp pixels: with a sampling of 3 a star
  three pixels off the image is skipped though its stamp reaches in.
- Wrapped calibrations (C112): ParamsWrapper does not forward the bounds. A thawed
  ShiftedPsf (or ScaledWcs, ...) makes the bounds of later members those of the wrong
  parameters, and with ConstrainedOptimizer every trial vector is too short, so that
  setParams raises. setStepSizes is stored on the wrapper and never used, getAllParams
  leaves out frozen parameters, and recursive freezing does not reach inside.
- Derivatives by differences (C113): the flux step is 1 whatever the flux, so a flux of
  2^53 has no derivative (None); up to 2^40 nanomaggies it is right to 2^-9. Image
  derivatives subtract two binary32 images: at 2^24 counts a change of half a count is
  derivative 0.
- Interrupted fits (C114): neither the line searches nor the stepping for derivatives
  restore the parameters when an evaluation raises or the user interrupts. The Tractor is
  left at a trial point, possibly far worse than the start, or with one parameter a
  derivative step off.
- Setup of forced photometry (C115): free parameters are matched to unit-flux models by
  number only. A source of which only the flux in another band is free, or one free
  coordinate and a frozen flux, passes the assertion, and the other band's flux or the
  coordinate is fitted as the flux in the image (C115_band_refuted,
  C115_position_refuted). A source that starts with zero or negative counts is drawn with
  its profile cut off at 0.001 whatever minsb (C115_cutoff_refuted). A source without a
  model mask where masks are expected is fitted, though the Tractor does not draw it
  (C115_mask_refuted). With regions and model masks, a frozen source gives ValueError, as
  the subimage is not one of the Tractor's images (C115_region_refuted).
- Inverse variances of forced photometry (C116): each is the curvature of chi-squared
  along one flux with all other fluxes and sky levels held. For overlapping sources it
  overstates how well the flux is known, without limit: two sources of one shape get
  finite errors though flux moves between them freely.
- The optimizers differ on shared parameters (C117): if one parameter has two
  derivatives in one image, as when two sources share it, the sparse optimizer adds
  them, the two dense ones keep the last. In the case of C117_repeated_refuted the dense
  optimizers step twice as far as fits the data.
- Rounding in constrained steps (C118): a parameter can move further than its maximum
  step (by less than half a unit in the last place of the parameter, plus a few roundings
  of the step), and "reduce alpha to just hit the limit" can increase alpha by a unit in the
  last place (C118_reduce_refuted, with alpha = sqrt(2.) of the default list). Bounds are
  kept exactly because the point is clamped once more.
- Masked pixels (C119): a NaN or an infinity in the data is not excluded by an inverse error
  of zero, since 0 * NaN and 0 * inf are NaN. One such pixel makes the log-probability -inf
  for all parameters; a fit then stays at its start and reports a gain of 0
  (C119_nan_refuted), and forced photometry fails with an assertion or another error
  (C119_forced_nan_refuted).
- C125: `HybridPixelizedPSF.copy` (through `PixelizedPSF.copy`, psf.py:120-121) passes the image only, so a copy of an oversampled PSF has sampling 1 and Lanczos order 3 and no native size (`C125_copy`, `C125_pix_copy`): it renders the oversampled stamp as if it were in native pixels.
- C125: a shifted hybrid, or one of `constantPsfAt`, shares pixelized PSF and Gaussians with its original; setting an attribute of one (for example `Lorder`) sets it on the other (`C125_shifted_refuted`).  Writing to a name that is a function of the hybrid's class (`copy`, `getShifted`, ...) goes to the pixelized PSF and is not read back (`C125_own_refuted`).  An object without state (made by `__new__`, as a subclass or a debugger may) recurses without end on any attribute (`C125_unset`).
