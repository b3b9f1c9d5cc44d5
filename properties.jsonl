{"id": "C01", "title": "Parameter vector views agree in length and order", "statement": "For any parameter object, the number of parameters, the parameter vector, the parameter names and the step sizes have the same length, and the vector lists exactly the values whose whole chain of owners is thawed, in storage order.", "quantifier": "every finite nesting of scalar parameters, parameter lists and parameter groups (with missing members), every pattern of frozen/thawed flags, every stored value", "why_tests_cant": "The number of tree shapes and freeze patterns is unbounded; the optimizers zip these vectors together silently, so one misaligned shape corrupts a fit without an error.", "anchors": ["tractor/utils.py:ParamList.getParams", "tractor/utils.py:MultiParams.getParams", "tractor/utils.py:MultiParams.getParamNames", "tractor/utils.py:MultiParams.numberOfParams", "tractor/utils.py:MultiParams.getStepSizes"]}
{"id": "C02", "title": "Setting the parameter vector writes exactly the thawed values", "statement": "After setting the parameter vector to a vector of the right length, reading the vector gives it back, every frozen value is unchanged, and no frozen/thawed flag changes.", "quantifier": "every finite nesting of scalar parameters, parameter lists and parameter groups (with missing members), every pattern of frozen/thawed flags, every stored value, every new vector", "why_tests_cant": "Needs every shape/flag/vector combination; the optimizer relies on it on each trial step.", "anchors": ["tractor/utils.py:MultiParams.setParams", "tractor/utils.py:ParamList.setParams", "tractor/utils.py:ScalarParam.setParams"]}
{"id": "C03", "title": "Writing back the current parameter vector changes nothing", "statement": "Setting the parameter vector to the vector just read leaves the whole object exactly as it was (this is how every optimizer backs out of a rejected step).", "quantifier": "every finite nesting of scalar parameters, parameter lists and parameter groups (with missing members), every pattern of frozen/thawed flags, every stored value", "why_tests_cant": "Backing out must be exact for every object, not for the sampled ones.", "anchors": ["tractor/utils.py:MultiParams.setParams", "tractor/utils.py:MultiParams.getParams", "tractor/optimize.py:Optimizer.tryUpdates"]}
{"id": "C04", "title": "Setting one parameter changes one entry and returns the old value", "statement": "Setting parameter i to v returns the previous i-th entry of the parameter vector and afterwards the vector differs from the previous one only at i, where it is v; an index outside the vector raises an error instead of writing anything.", "quantifier": "every finite nesting of scalar parameters, parameter lists and parameter groups (with missing members), every pattern of frozen/thawed flags, every stored value, every index (negative and too large included) and value", "why_tests_cant": "Finite-difference derivatives step and restore one entry at a time for arbitrary catalogs.", "anchors": ["tractor/utils.py:MultiParams.setParam", "tractor/utils.py:ParamList.setParam", "tractor/utils.py:NamedParams._indexLiquid"]}
{"id": "C05", "title": "The all-parameters view ignores frozen state and round-trips", "statement": "Reading all parameters returns every stored value whatever is frozen; setting all parameters from a vector of that length and reading back returns the vector and leaves the flags alone.", "quantifier": "every finite nesting of scalar parameters, parameter lists and parameter groups (with missing members), every pattern of frozen/thawed flags, every stored value, every new vector", "why_tests_cant": "Unbounded shapes; used for copying, hashing and saving calibration objects.", "anchors": ["tractor/utils.py:MultiParams.setAllParams", "tractor/utils.py:MultiParams.getAllParams", "tractor/utils.py:ParamList.setAllParams"]}
{"id": "C06", "title": "Freezing and thawing never touch values and act on exactly the named entries", "statement": "Over any sequence of freeze/thaw/freeze-all-but/thaw-all calls no stored value changes, and the thawed set afterwards is the one obtained by replaying the calls on a plain set of indices.", "quantifier": "every object, every finite history of freeze and thaw calls", "why_tests_cant": "Histories are unbounded.", "anchors": ["tractor/utils.py:NamedParams.freezeParam", "tractor/utils.py:NamedParams.thawParam", "tractor/utils.py:NamedParams.freezeAllBut", "tractor/utils.py:NamedParams.thawAllParams"]}
{"id": "C07", "title": "Recursive freezing and thawing reaches every level", "statement": "Recursively freezing everything leaves an empty parameter vector; recursively thawing everything makes the parameter vector equal to the all-parameters vector; recursively freezing a name freezes that name everywhere it occurs and nothing else.", "quantifier": "every finite nesting of scalar parameters, parameter lists and parameter groups (with missing members), every pattern of frozen/thawed flags, every stored value", "why_tests_cant": "Depth and width of the object tree are unbounded.", "anchors": ["tractor/utils.py:MultiParams.freezeParamsRecursive", "tractor/utils.py:MultiParams.thawParamsRecursive", "tractor/utils.py:NamedParams.freezeParamsRecursive"]}
{"id": "C08", "title": "Thawing the paths to a name makes every match reachable", "statement": "After thawing the paths to a set of names, each group member carrying one of the names and all of its owners are thawed, nothing becomes frozen, and the call reports success exactly when some name was found.", "quantifier": "every finite nesting of scalar parameters, parameter lists and parameter groups (with missing members), every pattern of frozen/thawed flags, every stored value, every set of names", "why_tests_cant": "Unbounded nesting.", "anchors": ["tractor/utils.py:MultiParams.thawPathsTo", "tractor/utils.py:NamedParams.thawPathsTo"]}
{"id": "C09", "title": "Liquid index of a parameter is its position in the parameter vector", "statement": "The reported thawed-index of a named parameter is the position of that parameter's value in the parameter vector, and -1 exactly when it is frozen.", "quantifier": "every parameter list, flag pattern and parameter", "why_tests_cant": "All flag patterns.", "anchors": ["tractor/utils.py:NamedParams.getLiquidIndex", "tractor/utils.py:NamedParams.getLiquidIndexOfIndex", "tractor/utils.py:NamedParams._indexLiquid"]}
{"id": "C10", "title": "Copying a parameter object preserves values and frozen state", "statement": "A copy has the same parameter vector, the same all-parameters vector and the same frozen state as the original, and later changes to either do not show in the other.", "quantifier": "every finite nesting of scalar parameters, parameter lists and parameter groups (with missing members), every pattern of frozen/thawed flags, every stored value", "why_tests_cant": "All shapes and freeze patterns; per-class overrides break it (multi-band brightness copies).", "anchors": ["tractor/utils.py:MultiParams.copy", "tractor/utils.py:ParamList.copy", "tractor/brightness.py:MultiBandBrightness.copy"]}
{"id": "C11", "title": "Frozen flags stay attached to their source through list edits", "statement": "Over any history of append/prepend/extend/remove/freeze/thaw on a catalog, there is exactly one flag per source, and a surviving source has the flag last given to it (new sources start thawed).", "quantifier": "every finite history of list edits and freeze/thaw calls", "why_tests_cant": "Histories are unbounded.", "anchors": ["tractor/utils.py:MultiParams.append", "tractor/utils.py:MultiParams.prepend", "tractor/utils.py:MultiParams.extend", "tractor/utils.py:MultiParams.remove"]}
{"id": "C12", "title": "Step sizes set are the step sizes read", "statement": "After setting the step sizes of the thawed parameters, reading them back returns the same list and the step sizes of frozen parameters are unchanged.", "quantifier": "every finite nesting of scalar parameters, parameter lists and parameter groups (with missing members), every pattern of frozen/thawed flags, every stored value, every list of steps", "why_tests_cant": "Fails only for particular freeze patterns combined with a previous setting.", "anchors": ["tractor/utils.py:NamedParams.setStepSizes", "tractor/utils.py:NamedParams.getStepSizes", "tractor/utils.py:MultiParams.setStepSizes"]}
{"id": "C13", "title": "Bounds and maximum steps are aligned with the parameter vector", "statement": "The lower-bound, upper-bound and maximum-step vectors have one entry per thawed parameter, entry i belonging to parameter i of the parameter vector.", "quantifier": "every finite nesting of scalar parameters, parameter lists and parameter groups (with missing members), every pattern of frozen/thawed flags, every stored value", "why_tests_cant": "The constrained optimizer zips these vectors with the parameters and silently truncates on mismatch.", "anchors": ["tractor/utils.py:MultiParams.getLowerBounds", "tractor/utils.py:ParamList.getLowerBounds", "tractor/constrained_optimizer.py:ConstrainedOptimizer.getParameterSteps"]}
{"id": "C14", "title": "Gaussian prior indices point at the right parameter", "statement": "Every (index, mean, sigma) reported for a group refers to the parameter of the group's parameter vector that the prior was attached to.", "quantifier": "every finite nesting of scalar parameters, parameter lists and parameter groups (with missing members), every pattern of frozen/thawed flags, every stored value, every set of priors", "why_tests_cant": "Fails only when an earlier or the same list has frozen entries.", "anchors": ["tractor/utils.py:MultiParams.getGaussianPriors", "tractor/utils.py:_GaussianPriors.getGaussianPriors"]}
{"id": "C15", "title": "Prior rows reproduce the log prior exactly", "statement": "The sparse system reported for Gaussian priors has one row per prior term on a thawed parameter, distinct terms have distinct rows, columns lie inside the parameter vector, and for every step d the change of the log prior on taking the step equals the change of -1/2 |A d - b|^2.", "quantifier": "every finite nesting of scalar parameters, parameter lists and parameter groups (with missing members), every pattern of frozen/thawed flags, every stored value, every set of priors, every parameter value and every step", "why_tests_cant": "Needs all nestings and all real values; row collisions would silently mix priors.", "anchors": ["tractor/utils.py:_GaussianPriors.getDerivs", "tractor/utils.py:MultiParams.getLogPriorDerivatives", "tractor/utils.py:_GaussianPriors.getLogPrior"]}
{"id": "C16", "title": "Adding a patch to an image touches exactly the overlap", "statement": "Adding a patch to an image with a scale adds scale times the patch pixel at each image pixel that the patch covers and leaves all others untouched, whatever the position of the patch (partly or wholly outside, empty, no data).", "quantifier": "every patch position and size, every image size, every pixel", "why_tests_cant": "All relative positions of two rectangles.", "anchors": ["tractor/patch.py:Patch.addTo"]}
{"id": "C17", "title": "Clipping a patch to an image keeps exactly the pixels inside", "statement": "After clipping a patch to a WxH image the patch lies inside the image and holds at each pixel inside the value it had before; if it reports no overlap, no pixel was inside.", "quantifier": "every patch position and size, every W,H", "why_tests_cant": "All relative positions, including patches left of or above the image.", "anchors": ["tractor/patch.py:Patch.clipTo"]}
{"id": "C18", "title": "Clipping a patch to a region of interest keeps exactly the pixels inside", "statement": "After clipping to [x0,x1)x[y0,y1) the patch lies inside that region, holds the previous value at each remaining pixel, and reports no overlap exactly when no pixel was inside.", "quantifier": "every patch position and size, every region", "why_tests_cant": "All relative positions.", "anchors": ["tractor/patch.py:Patch.clipToRoi"]}
{"id": "C19", "title": "Patch sums and differences are pointwise on the union", "statement": "The sum (difference) of two patches is, at each pixel of the plane, the sum (difference) of the two patches each taken as zero outside its own extent; its extent is the bounding box of both.", "quantifier": "every pair of patches in any relative position", "why_tests_cant": "All relative positions and sizes.", "anchors": ["tractor/patch.py:Patch.performArithmetic", "tractor/patch.py:add_patches"]}
{"id": "C20", "title": "Trimming a patch loses no nonzero pixel and is tight", "statement": "Trimming to nonzero leaves the patch, read as an image that is zero outside, unchanged; and if anything nonzero remains then the first and last row and column of the result each contain a nonzero pixel.", "quantifier": "every patch", "why_tests_cant": "All pixel contents.", "anchors": ["tractor/patch.py:Patch.trimToNonZero"]}
{"id": "C21", "title": "Pixel indices of a clipped patch are distinct, in range and row-major", "statement": "For a patch inside an image the listed flat indices are y*W+x for each pixel in row-major order; they are pairwise different and inside the image.", "quantifier": "every patch inside every image", "why_tests_cant": "All sizes and positions; rows of the least-squares matrix are these indices.", "anchors": ["tractor/patch.py:Patch.getPixelIndices", "tractor/lsqr_optimizer.py:LsqrOptimizer.getUpdateDirection"]}
{"id": "C22", "title": "Overlap tests are exact", "statement": "The bounding-box overlap test is true exactly when some pixel lies in both boxes; the nonzero-overlap test is true only if some pixel is nonzero in both, and for non-negative patches exactly then.", "quantifier": "every pair of boxes / patches", "why_tests_cant": "All relative positions.", "anchors": ["tractor/patch.py:Patch.overlapsBbox", "tractor/patch.py:Patch.hasNonzeroOverlapWith"]}
{"id": "C23", "title": "Overlap slices of patch and image select the same pixels", "statement": "The pair of slices returned for a patch and an image shape select sub-arrays of equal shape whose corresponding elements are the same sky pixels, and together they cover the whole overlap.", "quantifier": "every patch and image shape", "why_tests_cant": "All relative positions.", "anchors": ["tractor/patch.py:Patch.getSlices"]}
{"id": "C24", "title": "The model image is sky plus the sum of the source models, in any order", "statement": "The model image equals, at each pixel, the sky plus the sum of the source models there; it does not depend on the order of the catalog, and sources without a model contribute nothing.", "quantifier": "every catalog, every image size, every set of source patches, every permutation", "why_tests_cant": "All catalogs and permutations.", "anchors": ["tractor/engine.py:Tractor.getModelImage", "tractor/patch.py:Patch.addTo"]}
{"id": "C25", "title": "Log-likelihood and log-posterior rules", "statement": "The log-likelihood is minus half the sum of squared chi over all images and is never positive; the log-posterior is minus infinity when the prior is, without evaluating the images, and is never NaN.", "quantifier": "every set of images, models, weights and prior values including infinities and NaN", "why_tests_cant": "All values including non-finite ones.", "anchors": ["tractor/engine.py:Tractor.getLogLikelihood", "tractor/engine.py:Tractor.getLogProb"]}
{"id": "C26", "title": "Model masks select the right footprint", "statement": "When model masks are required, a source without a mask in an image is not rendered there, and a source is always rendered with the mask registered for that image and source.", "quantifier": "every assignment of masks, images and sources", "why_tests_cant": "All assignments.", "anchors": ["tractor/engine.py:Tractor.setModelMasks", "tractor/engine.py:Tractor._getModelMaskFor", "tractor/engine.py:Tractor.getModelPatch"]}
{"id": "C27", "title": "The cache never exceeds its capacity and evicts the least recently used entry", "statement": "Over any history of lookups and insertions the cache holds at most its capacity of entries, with distinct keys; a lookup returns the last value stored under the key as long as it is held; and inserting a new key into a full cache evicts the entry least recently used.", "quantifier": "every capacity >= 1 and every finite history of get/put/clear", "why_tests_cant": "Histories are unbounded.", "anchors": ["tractor/cache.py:Cache.__setitem__", "tractor/cache.py:Cache.__getitem__", "tractor/cache.py:Cache.get"]}
{"id": "C28", "title": "The model cache is transparent", "statement": "With the cache enabled, every requested source model equals the model that would be rendered without the cache, up to the requested approximation level.", "quantifier": "every history of requests, parameter changes and mask changes", "why_tests_cant": "Staleness appears only after particular histories.", "anchors": ["tractor/cache.py:TractorCacheMixin.getModelPatch"]}
{"id": "C29", "title": "A trial step never makes the fit worse and failed steps are undone", "statement": "Trying an update direction leaves the parameters either exactly as they were (reporting no gain) or at one of the tried points with strictly higher log-probability, reports exactly the gain obtained and the step fraction used, and the final log-probability is never lower than at the start.", "quantifier": "every log-probability function (including NaN and infinities), start, direction and list of step fractions", "why_tests_cant": "The objective is arbitrary.", "anchors": ["tractor/optimize.py:Optimizer.tryUpdates"]}
{"id": "C30", "title": "Constrained steps respect bounds and maximum steps", "statement": "Every point proposed by the constrained optimizer lies within the parameters' bounds, never moves a parameter by more than its maximum step when started inside the bounds, and proposals lie on the segment along the update direction up to clamping.", "quantifier": "every start inside the bounds, direction, bounds, maximum steps and list of step fractions", "why_tests_cant": "All real values.", "anchors": ["tractor/constrained_optimizer.py:ConstrainedOptimizer.getParameterSteps"]}
{"id": "C31", "title": "Constrained trial steps never make the fit worse", "statement": "The constrained optimizer ends at the best of the points it tried (or at the start if none is better), reports exactly the gain, and ends inside the bounds.", "quantifier": "every objective, start, direction, bounds and step fractions", "why_tests_cant": "The objective is arbitrary.", "anchors": ["tractor/constrained_optimizer.py:ConstrainedOptimizer.tryUpdates"]}
{"id": "C32", "title": "The optimization loop is monotone and bounded", "statement": "The optimization loop takes at most the requested number of steps, each of which does not lower the log-probability, and stops after the first step whose gain is below the threshold.", "quantifier": "every objective, every step oracle, every limit", "why_tests_cant": "Unbounded runs.", "anchors": ["tractor/lsqr_optimizer.py:LsqrOptimizer.optimize_loop", "tractor/constrained_optimizer.py:ConstrainedOptimizer.optimize_loop"]}
{"id": "C33", "title": "The sparse least-squares system places every derivative at its own pixel and parameter", "statement": "In the assembled system the entry for pixel i of image k and parameter j is the derivative there times the inverse error; different pixels of different images never share a row, and prior rows are disjoint from pixel rows.", "quantifier": "every set of images, derivative patches, parameters and priors", "why_tests_cant": "All image sizes and patch positions.", "anchors": ["tractor/lsqr_optimizer.py:LsqrOptimizer.getUpdateDirection"]}
{"id": "C34", "title": "Computing an update direction leaves the parameters unchanged", "statement": "Computing derivatives and the update direction, including the numeric stepping of parameters and the detection of shared parameters, leaves every parameter at its previous value.", "quantifier": "every object, every derivative oracle", "why_tests_cant": "All shapes.", "anchors": ["tractor/lsqr_optimizer.py:LsqrOptimizer.getUpdateDirection", "tractor/engine.py:Tractor.getDerivs", "tractor/pointsource.py:PointSource.getParamDerivatives"]}
{"id": "C35", "title": "Shared parameters receive one common update", "statement": "When several entries of the parameter vector are the same underlying parameter, the update assigns them the same value, distinct parameters keep independent updates, and the full update vector has one entry per parameter.", "quantifier": "every pattern of sharing", "why_tests_cant": "All partitions.", "anchors": ["tractor/lsqr_optimizer.py:LsqrOptimizer.getUpdateDirection"]}
{"id": "C36", "title": "The compact dense optimizer returns each update in the right slot", "statement": "The dense optimizer that skips parameters without derivatives and pixels outside the derivative bounds returns an update vector with one entry per parameter, zero for skipped parameters, and solves the same normal equations as the full system.", "quantifier": "every derivative layout", "why_tests_cant": "All layouts.", "anchors": ["tractor/smarter_dense_optimizer.py:SmarterDenseOptimizer", "tractor/dense_optimizer.py:ConstrainedDenseOptimizer"]}
{"id": "C37", "title": "Forced photometry keeps fluxes at or above the floor and applies the accepted sky step", "statement": "The rendered model uses fluxes no lower than the requested minimum flux, and after the line search sky levels and fluxes correspond to the same accepted step fraction.", "quantifier": "every set of fluxes, sky levels, step fractions and objectives", "why_tests_cant": "The mismatch appears only when the last tried fraction is not the best.", "anchors": ["tractor/optimize.py:Optimizer._getims", "tractor/lsqr_optimizer.py:LsqrOptimizer._lsqr_forced_photom"]}
{"id": "C38", "title": "Inverse variance of forced photometry", "statement": "The reported inverse variance of each source flux is the sum over all images and pixels of (unit-flux model x scale x inverse error) squared.", "quantifier": "every set of unit models, scales, image sizes and positions", "why_tests_cant": "All positions including partly outside.", "anchors": ["tractor/optimize.py:Optimizer._get_iv"]}
{"id": "C39", "title": "Integral image rectangle sums", "statement": "For every rectangle inside the image the four-corner formula on the integral image equals the sum of the pixels in the rectangle.", "quantifier": "every image and rectangle", "why_tests_cant": "All sizes and positions including edges.", "anchors": ["tractor/integral_image.py:integral_image", "tractor/integral_image.py:intimg_rect"]}
{"id": "C40", "title": "Symmetric integral image sums", "statement": "symm_intimg_rect on the integral image of the first quadrant of a mirror-symmetric image equals, for every non-empty box, the sum over the box of the mirror-symmetric image whose first quadrant is given; symm_intimg_ref returns the values of the integral image of that full image.", "quantifier": "every image, centre and box", "why_tests_cant": "All positions.", "anchors": ["tractor/symmetric_integral_image.py:symm_intimg_rect", "tractor/symmetric_integral_image.py:symm_intimg_ref"]}
{"id": "C41", "title": "Region-of-interest interpretation", "statement": "Every accepted region of interest is non-empty, inside the image, is the intersection of the request with the image, and the has-ROI flag is set exactly when the region differs from the full image; empty requests are refused.", "quantifier": "every image size and requested region", "why_tests_cant": "All integer inputs.", "anchors": ["tractor/imageutils.py:interpret_roi"]}
{"id": "C42", "title": "Magnitude/flux conversions are mutually inverse", "statement": "Converting a magnitude to nanomaggies and back (and a zeropoint to a scale and back) is the identity, conversion is strictly decreasing in magnitude, and the reported magnitude error is the flux error times the slope of the conversion (NaN where undefined). Adding magnitudes adds the fluxes and multiplying scales them, band by band. MagsPhotoCal and LinearPhotoCal with the converted zeropoint give the same counts.", "quantifier": "every real magnitude / positive flux", "why_tests_cant": "All real values.", "anchors": ["tractor/brightness.py:NanoMaggies"]}
{"id": "C43", "title": "Ellipse parameterisations describe the same ellipse", "statement": "Axis ratio, position angle and radius converted to ellipticity components and back are unchanged; the softened form always gives an ellipticity below one; the basis matrix has the requested axes.", "quantifier": "every radius, axis ratio in (0,1], angle, and softened components", "why_tests_cant": "All real values.", "anchors": ["tractor/ellipses.py:EllipseE", "tractor/ellipses.py:EllipseESoft"]}
{"id": "C44", "title": "Mixture algebra preserves flux and moments", "statement": "Convolving two mixtures gives a mixture with total amplitude equal to the product, mean equal to the sum of means and covariance equal to the sum of covariances; an affine map keeps the amplitude and maps mean and covariance accordingly; covariance stays symmetric and non-negative.", "quantifier": "every pair of mixtures with any number of components", "why_tests_cant": "All component counts and values.", "anchors": ["tractor/mixture_profiles.py:MixtureOfGaussians.convolve", "tractor/mixture_profiles.py:MixtureOfGaussians.apply_affine", "tractor/mixture_profiles.py:MixtureOfGaussians.apply_shear", "tractor/mixture_profiles.py:MixtureOfGaussians.__add__"]}
{"id": "C45", "title": "Ring-growing rendering is memory safe, terminates and reports a box containing everything it rendered", "statement": "The approximate Gaussian renderer writes only inside the requested box, evaluates no pixel twice, terminates, renders every pixel connected to the start through pixels above the threshold, and the box it reports contains every rendered pixel.", "quantifier": "every box, start pixel, brightness function, threshold and minimum radius", "why_tests_cant": "All brightness shapes; the reported box fails only for tilted thin sources.", "anchors": ["tractor/approx3.c:c_gauss_2d_approx3", "tractor/mixture_profiles.py:MixtureOfGaussians.evaluate_grid_approx3"]}
{"id": "C46", "title": "The 7-tap separable correlation equals zero-padded correlation", "statement": "The C correlation routine writes each output pixel exactly with the sum over the 7x7 neighbourhood of the two filters times the image taken as zero outside, reads and writes only inside its buffers, for every image of at least 9x9.", "quantifier": "every image size and contents, every pair of filters", "why_tests_cant": "All sizes; edges are special-cased by hand.", "anchors": ["tractor/mp_fourier.i:correlate7f_inout", "tractor/mp_fourier.i:correlate7", "tractor/psf.py:lanczos_shift_image"]}
{"id": "C47", "title": "Spline sky smoothness prior", "statement": "The smoothness prior rows reported for the spline sky reproduce the change of its log prior for every step of the coefficients.", "quantifier": "every grid size, coefficient values and step", "why_tests_cant": "All sizes and values.", "anchors": ["tractor/splinesky.py:SplineSky.getLogPrior", "tractor/splinesky.py:SplineSky.getLogPriorDerivatives"]}
{"id": "C48", "title": "Derivative lists have one entry per thawed parameter", "statement": "Point sources, galaxies and composite galaxies return exactly one derivative per thawed parameter, in parameter order, for every combination of frozen parts.", "quantifier": "every freeze combination and every rendering outcome", "why_tests_cant": "The optimizers assign derivatives to parameters by position.", "anchors": ["tractor/pointsource.py:PointSource.getParamDerivatives", "tractor/galaxy.py:Galaxy.getParamDerivatives", "tractor/galaxy.py:FixedCompositeGalaxy.getParamDerivatives", "tractor/galaxy.py:CompositeGalaxy.getParamDerivatives"]}
{"id": "C49", "title": "Padding a PSF image keeps its centre and its pixels", "statement": "Embedding a PSF stamp in a larger or smaller array keeps each retained pixel at the same offset from the reported centre, drops only pixels that do not fit, and fills the rest with zero.", "quantifier": "every odd stamp size and every target size", "why_tests_cant": "All size combinations and parities.", "anchors": ["tractor/psf.py:PixelizedPSF._padInImage"]}
{"id": "C50", "title": "PSF rendered into a mask equals the cropped full rendering", "statement": "A pixelized PSF placed in a mask gives, at each pixel of the mask, the value of the full rendering of the PSF there, and reports no model only when the stamp and the mask do not overlap.", "quantifier": "every position, stamp size and mask", "why_tests_cant": "All relative positions.", "anchors": ["tractor/psf.py:PixelizedPSF.getPointSourcePatch"]}
{"id": "C51", "title": "Gaussian-mixture parameters round-trip", "statement": "For a mixture-of-Gaussians parameter object the flat parameter vector determines amplitudes, means and symmetric variances and conversely, setting one entry changes only that entry, and names match positions.", "quantifier": "every number of components, every values, every index", "why_tests_cant": "All component counts.", "anchors": ["tractor/utils.py:MogParams._setThings", "tractor/utils.py:MogParams._getThings", "tractor/utils.py:MogParams._setThing"]}
{"id": "C52", "title": "Parallel derivative evaluation returns results in order", "statement": "Distributing derivative evaluations over a pool and reassembling gives each derivative to the parameter and image it was computed for.", "quantifier": "every catalog, image list and freeze pattern", "why_tests_cant": "All counts.", "anchors": ["tractor/multiproc.py"]}
{"id": "C53", "title": "Shifted coordinates agree with the parent image", "statement": "A subimage's WCS, PSF and sky evaluated at pixel (x,y) equal the parent's at (x+x0,y+y0); shifts compose.", "quantifier": "every offset, every pixel", "why_tests_cant": "All offsets and compositions.", "anchors": ["tractor/shifted.py:ShiftedWcs", "tractor/wcs.py:ConstantFitsWcs", "tractor/wcs.py:NullWCS", "tractor/image.py:Image.subimage"]}
{"id": "C54", "title": "Assembled derivatives line up with the parameter vector", "statement": "Tractor.getDerivs returns one row per entry of the parameter vector, image parameters first and then source parameters, each row holding exactly the derivatives computed for that parameter in each image, and leaves every parameter at its previous value.", "quantifier": "every list of images and sources, every freeze pattern, every derivative returned by the sources and images", "why_tests_cant": "The optimizers match rows and parameters by position; all combinations of frozen images, frozen sources, absent sources and missing derivatives.", "anchors": ["tractor/engine.py:Tractor.getDerivs", "tractor/engine.py:Tractor._getSourceDerivatives", "tractor/image.py:Image.getParamDerivatives"]}
{"id": "C55", "title": "PsfEx polynomial terms fill the term array without collision", "statement": "For a PsfEx model of any degree the index of the monomial dx^j dy^k is a bijection onto 0..(d+1)(d+2)/2-1, so the term array holds each monomial exactly once and evaluating with that many basis images raises no IndexError.", "quantifier": "every degree, every position, every scale and offset", "why_tests_cant": "The index formula must be right for every degree; tests use one or two degrees.", "anchors": ["tractor/psfex.py:PsfExModel.polynomials"]}
{"id": "C56", "title": "Calibration parameters survive the FITS header", "statement": "Writing the parameters of a calibration object (PSF, WCS, sky, photometric calibration) into a FITS header under a prefix and reading them back under the same prefix gives an object with the same parameters, whatever other records the header holds.", "quantifier": "every parameter vector, every frozen/thawed pattern, every header without records under the prefix", "why_tests_cant": "Tests save one image with everything thawed and a few parameters; frozen parameters and long vectors are dropped silently.", "anchors": ["tractor/ducks.py:ImageCalibration.toFitsHeader", "tractor/ducks.py:ImageCalibration.fromFitsHeader", "tractor/psf.py:GaussianMixturePSF.fromFitsHeader"]}
{"id": "C57", "title": "Fit statistics of a source use its own profile only", "statement": "The profile-weighted statistics that forced photometry reports for each source (chi-squared, number of pixels, masked fraction, flux of others, flux inside, extra images) are the sums over all images and pixels of that source's own normalised model, whatever other sources there are, and computing them leaves the model images unchanged.", "quantifier": "every catalog, set of unit-flux models, image sizes, masks and sky levels", "why_tests_cant": "Work arrays are reused between sources and slices depend on positions; leaks show only for particular orders and edge positions.", "anchors": ["tractor/optimize.py:Optimizer._get_fitstats"]}
{"id": "C58", "title": "Unit-flux models line up with sources in every image", "statement": "In forced photometry each unit-flux model of each source is stored, in every image, at the positions recorded for that source, moved into the image's region of interest, and the positions of all sources together run through all columns in order.", "quantifier": "every list of sources with any number of components, every list of images and regions", "why_tests_cant": "Positions are recorded from the first image only and used for all.", "anchors": ["tractor/optimize.py:Optimizer._get_umodels"]}
{"id": "C59", "title": "Galaxies rendered by FFT land on the right pixels, with or without a mask", "statement": "Rendering a galaxy with a pixelized PSF gives, with a model mask, a patch that is exactly the mask's rectangle and, without one, a patch that inside the image covers exactly the pixels within the galaxy's half-size; every pixel holds the value the rendered image has at that distance from the source (shifted by at most half a pixel), and no pixel of a mask falls off the rendered image.", "quantifier": "every source position, mask position and size, PSF stamp size, image size and half-size", "why_tests_cant": "Placement goes through padding to a power of two, rounding, cropping at both ends and slices with computed bounds; each combination of position, parity and edge is a different case.", "anchors": ["tractor/galaxy.py:ProfileGalaxy._realGetUnitFluxModelPatch", "tractor/psf.py:PixelizedPSF.getFourierTransform"]}
{"id": "C60", "title": "A hybrid PSF renders every galaxy component exactly once in total", "statement": "With a hybrid PSF the galaxy profile is split into a part rendered as Gaussians and a part rendered by FFT such that the two shares of every component add up to one, each share lies between 0 and 1, components well inside the patch are rendered by FFT only and components that reach beyond it as Gaussians only, and no assertion fires.", "quantifier": "every mixture of components with non-negative variances, every patch width, every pair of sigma limits 0 <= n1 < n2", "why_tests_cant": "The two parts are selected by separate comparisons and weighted by separate formulas; that they complement each other for every component, including at the limits, cannot be sampled.", "anchors": ["tractor/galaxy.py:ProfileGalaxy._realGetUnitFluxModelPatch"]}
{"id": "C61", "title": "Copies made by classes with their own copy method keep values and frozen state", "statement": "Copying a multi-band brightness, a Sersic galaxy, a magnitude calibration or a PSF of concentric Gaussians gives an object with the same values under the same names and the same frozen state; multiplying a multi-band brightness by a factor scales every band and nothing else; two such PSFs have the same hash key only if they render the same.", "quantifier": "every number of bands or components, every order of bands, every value, every pattern of frozen flags, every factor", "why_tests_cant": "The copies are rebuilt through constructors that reset flags and through iterators that skip frozen entries; which patterns survive is a statement about all of them.", "anchors": ["tractor/brightness.py:MultiBandBrightness.copy", "tractor/brightness.py:Mags.__mul__", "tractor/brightness.py:Fluxes.__mul__", "tractor/sersic.py:SersicGalaxy.copy", "tractor/psf.py:NCircularGaussianPSF.copy", "tractor/psf.py:NCircularGaussianPSF.hashkey"]}
{"id": "C62", "title": "Arithmetic on positions and times is elementwise", "statement": "The sum, difference, product and quotient of a parameter object with another one or with a number (on either side) is a new object whose values, frozen or not, are the elementwise results, with the frozen state of the left object; the in-place forms do the same to the object itself; adding and then subtracting the same operand gives back the values.", "quantifier": "every scalar or list object of any length, every pattern of frozen flags, every operand", "why_tests_cant": "Operands of different lengths, frozen entries and reflected operators multiply the cases.", "anchors": ["tractor/utils.py:ArithmeticParams", "tractor/wcs.py:RaDecPos", "tractor/motion.py:Parallax"]}
{"id": "C63", "title": "Cache keys tell different models apart", "statement": "Two requests for a source model use the same cache entry only if the image arrays, the PSF, the coordinate system, the calibration and the source would give the same model; so with the cache enabled no history of parameter changes gives a stale model.", "quantifier": "every image, every PSF, coordinate system, calibration and source class with any nesting of members and wrappers, every parameter value, every history of requests", "why_tests_cant": "A collision needs two particular states of the same program; tests compare a few keys.", "anchors": ["tractor/cache.py:TractorCacheMixin.getModelPatch", "tractor/utils.py:BaseParams.hashkey", "tractor/utils.py:MultiParams.hashkey", "tractor/image.py:Image.hashkey", "tractor/psf.py:PixelizedPSF.hashkey", "tractor/psfex.py:PixelizedPsfEx.hashkey", "tractor/wcs.py:NullWCS.hashkey", "tractor/shifted.py:ShiftedPsf.hashkey"]}
{"id": "C64", "title": "Images and Fourier transforms of a PSF describe one PSF", "statement": "Whatever was asked of a pixelized PSF before (images, transforms of any size, shifts, cache clears), the Fourier transform it gives for a position is the discrete Fourier transform of the image it gives for that position, placed in the window at the centre it reports; for normalised PSFs both are normalised, and a copy behaves the same.", "quantifier": "every stamp or set of basis images of odd size, every radius and position, every history of calls, all frequencies", "why_tests_cant": "The transforms are cached and the normalising mixin divides cached arrays in place, so only particular histories can go wrong; equality is over all frequencies and positions.", "anchors": ["tractor/psf.py:PixelizedPSF.getFourierTransform", "tractor/psf.py:PixelizedPSF._getOversampledFourierTransform", "tractor/psf.py:PixelizedPSF.copy", "tractor/psf.py:NormalizedPsf", "tractor/psfex.py:PixelizedPsfEx.getFourierTransform", "tractor/psfex.py:PsfExModel.at"]}
{"id": "C65", "title": "Gaussian PSF stamps show the documented mixture where they should", "statement": "A Gaussian-mixture PSF or a circular-Gaussian PSF returns a stamp that covers every pixel of the allowed region within the radius of the source, holds at every pixel the mixture density centred on the source (up to the stated cut-off), is zero outside the mask, and with derivs returns the true position derivatives; the circular PSF has total mass one whatever the weights, and no rendering changes what later renderings give.", "quantifier": "every mixture with symmetric positive variances, every position, radius, clip region and mask, every history of renderings by any PSFs sharing the mixture cache", "why_tests_cant": "Coverage and values are over all real positions and pixels; the shared cached mixture is modified in place, so only particular histories go wrong.", "anchors": ["tractor/psf.py:GaussianMixturePSF.getPointSourcePatch", "tractor/psf.py:NCircularGaussianPSF.getPointSourcePatch", "tractor/psf.py:getCircularMog", "tractor/pointsource.py:PointSource.getUnitFluxModelPatch", "tractor/mixture_profiles.py:MixtureOfGaussians.evaluate_grid_masked", "tractor/mixture_profiles.py:mixture_to_patch", "tractor/gauss_masked.c:c_gauss_2d_masked", "tractor/mix.i:c_gauss_2d_grid"]}
{"id": "C66", "title": "Sersic profiles have unit flux and vary continuously with the index", "statement": "For every Sersic index a profile exists, its amplitudes sum to one (the unresolved core included), its components are sorted by variance and none has a negative variance; indices outside [0.29, 6.3] give the profile of the nearer end; at a tabulated index the profile is the tabulated row; and the rendered light varies continuously with the index, through the ends of table ranges and through the onset of the core.", "quantifier": "every real index, every continuous interpolating spline, every way of reading light from a variance", "why_tests_cant": "Continuity and coverage are over all real indices; a jump of a fraction of a percent at one range end shows only in derivatives taken across it.", "anchors": ["tractor/sersic.py:SersicMixture.__init__", "tractor/sersic.py:SersicMixture._getProfile"]}
{"id": "C67", "title": "Stepped galaxy profiles report the step that was taken", "statement": "getDerivativeShearedProfiles returns one profile per thawed shape or index parameter; each is the profile with just that parameter moved by the reported step; the Sersic index stays within its bounds, every stepped profile has as many Gaussian components as the current one, and the galaxy is left as it was.", "quantifier": "every galaxy, every legal Sersic index, every index step below 0.025", "why_tests_cant": "Whether a step crosses a change in component count or a bound depends on the real-valued index; the fall-back to the opposite direction must hold near every change point.", "anchors": ["tractor/sersic.py:SersicGalaxy.getDerivativeShearedProfiles", "tractor/galaxy.py:HoggGalaxy.getDerivativeShearedProfiles", "tractor/sersic.py:SersicIndex"]}
{"id": "C68", "title": "The GPU optimizer's padded frames give the CPU's models and chi-squares", "statement": "GpuOptimizer's padded frames hold each image's masked pixels, weights and PSF at known places with at least six pixels of room; point-source patches agree pixel by pixel with the CPU's masked PSF patch times counts; the chi-square change of every step equals the difference of sums of squared weighted residuals over the masks with the model laid around that step's position; a step that would move weighted pixels out of kept frames is evaluated in fresh frames; and kept frames belong to the tractor at hand.", "quantifier": "every non-empty list of images, masks inside them, PSF sizes, positions and steps; every ring of pixel values and every shift filter", "why_tests_cant": "Frame sizes, paddings and slice signs depend on image, mask, PSF and step geometry; each combination takes another branch, and the batched arithmetic silently drops pixels that fall outside.", "anchors": ["tractor/gpu_optimizer.py:get_image_params", "tractor/gpu_optimizer.py:cache_image_params", "tractor/gpu_optimizer.py:gpu_setup_image_params", "tractor/gpu_optimizer.py:correlate7_2d_gpu", "tractor/gpu_optimizer.py:gpu_one_source_models", "tractor/gpu_optimizer.py:gpu_one_source_try_updates"]}
{"id": "C69", "title": "The GPU line search makes the CPU's choice", "statement": "For a catalog that the GPU code handles, GpuOptimizer.tryUpdates ends at the same parameters, returns the same gain and fraction, and leaves the same hit_limit, last_step_hit_limit and stepLimited as ConstrainedOptimizer.tryUpdates on the same steps; it never leaves the parameters worse than the start; steps to absurd pixel positions and all after them are ignored.", "quantifier": "every start, direction and list of steps, every prior and likelihood (infinite and undefined values included)", "why_tests_cant": "Agreement is over all sequences of log-probabilities, including infinite ones, ties and early exits, and over flags that only change how later iterations stop.", "anchors": ["tractor/gpu_optimizer.py:gpu_one_source_try_updates", "tractor/constrained_optimizer.py:tryUpdates"]}
{"id": "C70", "title": "Galaxy stamps of the GPU optimizer do not depend on the batch", "statement": "In gpu_get_unitflux_galaxy_profiles every profile of every image gets the stamp of its own mixture: each component split between the Gaussian and the Fourier method by its own size (all Gaussian within three sigmas of half the frame, none beyond four, linear between; the CPU's split), convolved with that image's PSF. Other images and profiles in the batch, the order of components and the padding of mixtures to a common length do not change it, and none of the function's assertions fires.", "quantifier": "every batch of images and profiles with at least one non-zero amplitude, every number and order of components with positive semidefinite variances, every PSF mixture and every linear inverse transform", "why_tests_cant": "Which columns of the padded arrays each method takes is the extreme over the whole batch; whether weights apply depends on all profiles at once. Wrong column ranges double or drop light only for particular mixes of sizes.", "anchors": ["tractor/gpu_optimizer.py:gpu_get_unitflux_galaxy_profiles", "tractor/gpu_optimizer.py:get_vectorized_psfs"]}
{"id": "C71", "title": "The GPU optimizer's update minimises the linearised chi-square", "statement": "gpu_one_source_update returns a vector with one entry per thawed parameter (source, then background) that minimises the squared weighted residuals of the linearised model over all frames plus the prior terms; entries of parameters without influence are zero, and None is returned only if no parameter has influence. With only fluxes free, the step leads to the minimum of the chi-square itself. With get_A the matrix of derivatives is returned.", "quantifier": "every number of images and bands, every order of bands in images and source, every padded frame and stamp, every set of single-row priors, with or without position, shapes, source or background", "why_tests_cant": "The solved columns are those of the images' bands in sorted order, minus the zero ones, while the result is in the parameter order; a wrong map only shows for particular band orders, missing bands or zero columns.", "anchors": ["tractor/gpu_optimizer.py:gpu_one_source_update"]}
{"id": "C72", "title": "Fitting a Gaussian mixture by EM never makes the fit worse", "statement": "Each step of em_fit_2d_reg and em_fit_1d_samples_reg leaves the log likelihood of the data under the normalised mixture, less the inverse-Wishart penalty with strength alpha, no smaller than before; the amplitudes add up to the flux of the image, every variance stays symmetric and positive definite if alpha > 0, and the centre and variance of each component are the best for its share of the flux. GaussianMixturePSF.fromStamp returns a PSF of unit flux.", "quantifier": "every image without negative pixels or every list of samples, every number of components and steps, every alpha >= 0, every start with positive amplitudes and positive definite variances", "why_tests_cant": "Convergence on a few stamps does not show monotonicity for all stamps and starts; the cut at ten standard deviations, components without weight and singular variances appear only for particular data.", "anchors": ["tractor/emfit.i:em_fit_2d_reg", "tractor/emfit.i:em_fit_1d_samples_reg", "tractor/psf.py:GaussianMixturePSF.fromStamp", "tractor/fitpsf.py:em_init_params"]}
{"id": "C73", "title": "The EM fit with sky never makes the fit worse and accounts for all flux", "statement": "Each step of em_fit_2d_reg2 leaves the penalised log likelihood of the mixture with constant sky no smaller than it was with each component cut off where its unit profile is below approx, where pixels that are not positive count as sky with their absolute value; afterwards the component amplitudes and the sky times the number of pixels add up to the total absolute flux, the sky is positive and variances are positive definite if alpha > 0.", "quantifier": "every image with positive total, every number of components and steps, every alpha >= 0 and approx, every start with positive amplitudes and positive definite variances", "why_tests_cant": "Variances are taken about the centre of the step before and components are cut off where faint, so ascent is not the textbook result; negative pixels and cut-offs combine in ways that a few stamps do not cover.", "anchors": ["tractor/emfit2.c:em_fit_2d_reg2"]}
{"id": "C74", "title": "A source's model is the sum of its counts times its unit-flux models", "statement": "The patch that getModelPatch returns for a point source, a galaxy, a CompositeGalaxy, a DevCoreGalaxy or a SersicCoreGalaxy is, as an image, the sum over getBrightnesses of the counts times the matching patch of getUnitFluxModelPatches, so forced photometry and rendering mean the same; and a surface-brightness cutoff minsb bounds the error of each pixel of the source.", "quantifier": "every pair of components, counts (also zero, negative or not finite), cutoffs, and every way of rendering a component that keeps within the cutoff it is given", "why_tests_cant": "The two methods take different paths for cutoffs, zero counts and components outside the image; a test fixes the components and the overlap of their patches, and equality is needed at every pixel.", "anchors": ["tractor/pointsource.py:SingleProfileSource.getModelPatch", "tractor/galaxy.py:CompositeGalaxy", "tractor/devcore.py:DevCoreGalaxy", "tractor/sercore.py:SersicCoreGalaxy"]}
{"id": "C75", "title": "A fixed composite galaxy is f parts deV and 1-f parts exponential, in a box that holds both", "statement": "The profile of FixedCompositeGalaxy in an image is f times that of the de Vaucouleurs galaxy plus 1-f times that of the exponential galaxy, each with its own shape, and its total is one, for f = fracDev.clipped() and both ways of rendering; fracDev.clipped() lies in [0,1] and fracDev.derivative() is its derivative; the rendered box holds every pixel of the image within the galaxy's radius.", "quantifier": "every fraction, shape, WCS, image size, position and PSF radius", "why_tests_cant": "Adding mixtures renormalises them, which is harmless only if both profiles are normalised; f = 0 and f = 1 take different branches; and the box is limited by the image in a way that depends on where the source is.", "anchors": ["tractor/galaxy.py:FixedCompositeGalaxy", "tractor/galaxy.py:FracDev", "tractor/galaxy.py:SoftenedFracDev", "tractor/galaxy.py:HoggGalaxy._getUnitFluxPatchSize"]}
{"id": "C76", "title": "Forced photometry with Ceres minimises the chi-squared of all pixels", "statement": "The objective that CeresOptimizer's forced photometry hands to Ceres is half the sum over all pixels of all images of ((image - model) * inverse error) squared, where the model is the frozen model plus each flux times the photometric scale times the unit-flux model (and each sky parameter of that image times its derivative), whatever the size of the blocks the images are cut into; the Jacobians are the derivatives of the residuals, for fluxes and (nonneg) their logarithms; the parameters set at the end are the minimum the solver found, other parameters keep their values, with nonneg the fluxes come out non-negative, and result.ims1 shows the model of the result.", "quantifier": "for all images, block sizes, lists of unit-flux patches (overlapping any number of blocks, partly or wholly outside the image, or missing), with and without sky, all parameter values, any solver that descends or that finds a minimum", "why_tests_cant": "A unit test fits a few sources in small images; that no pixel is lost or counted twice and no source missing from a block is a statement about all ways that patches and blocks can overlap, and the solver's own result hides a Jacobian that is slightly wrong.", "anchors": ["tractor/ceres_optimizer.py:229-387", "tractor/ceres.i:42-280", "tractor/ceres-tractor.cc:24-160"]}
{"id": "C77", "title": "The Ceres optimizer maximises the log-probability of images and Gaussian priors", "statement": "CeresOptimizer.optimize hands Ceres an objective that is minus the log-probability (chi-squared of all images and the Gaussian priors) as a function of rescaled parameters, started at the current parameters; the dlnp it returns is the change in log-probability, non-negative for a solver that descends, and the parameters set are the best of all if the solver finds the best. Bounds mean the same before and after rescaling, a step of one dynamic scale changes chi by length one, and the variances are those of the unscaled parameters. The Jacobian for a parameter is, at every pixel, the scale times the derivative of chi, under the number that this parameter has in the tractor, and no memory outside the image is touched.", "quantifier": "for all tractors (any number of images and sources, frozen or thawed parameters), derivative patches anywhere inside or outside the image, parameter values, scales, priors, bounds, and initial contents of the Jacobian memory; any solver", "why_tests_cant": "The rescaling, the numbering of parameters across images and sources and the patch-to-memory copies are each silent if wrong: the solver still converges, only slower or to a slightly different place. A test sees a few layouts; the claim is about all of them.", "anchors": ["tractor/ceres_optimizer.py:19-228", "tractor/ceres_optimizer.py:389-424", "tractor/ceres.i:368-660", "tractor/ceres-tractor.cc:160-383"]}
{"id": "C78", "title": "A moving point source is where its proper motion and parallax put it", "statement": "MovingPointSource.getPositionAtTime(t) is the direction of the unit vector at (position + years since the epoch times proper motion) displaced towards the Sun by the parallax: linear in time without parallax, constant without motion, back at the same place after whole Julian years without proper motion, and never turned by more than the parallax. TAITime converts consistently between seconds, MJD, years and the angle of the Sun. Every source has a place in every image, and a copy of a source is at the same place.", "quantifier": "for all positions, proper motions, parallaxes, epochs and times, whatever is frozen", "why_tests_cant": "Sign and units errors in the parallax ellipse or a mistaken factor in the time conversions show only as small systematic shifts; a test compares a few numbers, the claim is about the whole ellipse at all times.", "anchors": ["tractor/motion.py:5-115", "tractor/tractortime.py:4-43", "tractor/pointsource.py:66-82"]}
{"id": "C79", "title": "Derivatives of a moving point source are the differences of its own images", "statement": "MovingPointSource.getParamDerivatives returns one derivative per thawed parameter, in the order of the parameters (position, brightness, proper motion, parallax), each being the image of the source with that parameter stepped minus its image, divided by the step, where the image is counts times the patch that getUnitFluxModelPatch draws; the source is left unchanged, and a source that is not drawn in the image gives no derivatives instead of an error.", "quantifier": "for all sources and frozen states, all PSFs, WCSs and photometric calibrations, all step sizes", "why_tests_cant": "The derivatives are compared with the parameters by position only, so a wrong order or a step that is not undone is not seen unless every combination of frozen members is tried.", "anchors": ["tractor/motion.py:117-212"]}
{"id": "C80", "title": "A varying Gaussian PSF has the fitted parameters at the grid points, whatever was asked before", "statement": "VaryingGaussianPSF.psfAt fits the PSF on a grid at its first use, each fit starting from its neighbour's result; at the grid points the parameters are those of the fits, for any psfClass including the default one; the result at a position does not depend on earlier calls. CachingPsfEx gives the PSF of a position at most half a rounding cell away, with the same result whether it comes from the cache or not, and fromPsfEx gives a cached PSF equivalent to the given one.", "quantifier": "for all grids, image sizes, PSF classes and PSF images, all interpolating splines, all series of calls, all positions and cell sizes", "why_tests_cant": "The fit is lazy and the cache fills with use, so a result may depend on the history; a test checks one order of calls on one side of the origin.", "anchors": ["tractor/psfex.py:8-152", "tractor/psfex.py:694-733", "tractor/psf.py:537-596"]}
{"id": "C81", "title": "A varying PSF comes back from its FITS file", "statement": "What VaryingGaussianPsfEx.toFits writes, with columns merged or not, fromFits reads back as a PSF with the same grid, names and parameters, usable like the original; a PsfExModel that was read, or a copy of one, can be written and read again as the same model.", "quantifier": "for all grids of parameters, up to nine components, merged or not, all PsfEx model files", "why_tests_cant": "Merging columns relies on the shape of the names; a test writes one class with one number of components, and an error in one index is invisible if the planes are alike.", "anchors": ["tractor/psfex.py:155-286", "tractor/psfex.py:560-684"]}
{"id": "C82", "title": "Fast position derivatives are the derivatives of the model", "statement": "The x and y derivative images that the mixture renderer returns are the derivatives of the rendered pixels with respect to the centre of the source, and what pixelDerivsToPositionDerivs makes of them are the derivatives of counts times the model with respect to the thawed parameters of the position, for the coordinate systems given in the package; for galaxies the differences of neighbouring pixels approximate them on the whole patch.", "quantifier": "for all mixtures of Gaussians (any number, means, variances, amplitudes), positions, pixels, counts, coordinate systems and sets of thawed parameters", "why_tests_cant": "A wrong scale on one derivative only slows an optimizer down, and at Dec = 0 or with a pixel scale of 3600 the scale is right; a test compares two images within a tolerance.", "anchors": ["tractor/mix.i:44-140", "tractor/gauss_masked.c:60-130", "tractor/ducks.py:403-425", "tractor/wcs.py:7-49", "tractor/galaxy.py:161-178"]}
{"id": "C83", "title": "Images survive copying and FITS files", "statement": "An image made with inverse variances (or inverse errors, which take precedence) reports them back; Image.copy gives an equal image; and readFromFits applied to what toFits wrote gives an image with the same pixels, errors and calibrations (PSF, WCS, sky, photometric calibration).", "quantifier": "for all images (any size, pixels incl. NaN, signs of the errors), calibration classes of the package and their parameters, key prefixes and headers given to toFits", "why_tests_cant": "A test writes and reads one image with one set of calibration classes, the identity WCS and a new header; which classes, offsets, flags and headers come back wrong or not at all depends on the combination.", "anchors": ["tractor/image.py:15-77", "tractor/image.py:164-254", "tractor/ducks.py:162-193", "tractor/psf.py:407-425", "tractor/brightness.py:246-342", "tractor/wcs.py:8-49"]}
{"id": "C84", "title": "A spline sky estimated from an image goes through medians of its unmasked pixels", "statement": "SplineSky.BlantonMethod(image, mask, gridsize) gives a spline whose control points enclose the image half a grid box apart, each with the median of the unmasked pixels around it; masked pixels have no influence; a constant image gives this constant; the mask may be None.", "quantifier": "for all images (any size, pixels incl. NaN), masks and grid sizes", "why_tests_cant": "A test uses one image with a grid size that divides its size and a mask that leaves pixels in all boxes; rounding of box positions, empty boxes, a missing mask and small sizes are not seen.", "anchors": ["tractor/splinesky.py:7-51", "tractor/splinesky.py:53-82"]}
{"id": "C85", "title": "Operations on a spline sky change what is drawn as they say, and tables keep it", "statement": "offset(d) adds d to the sky drawn everywhere, scale(f) multiplies it, shifted(x, y) draws on a subimage what was drawn there on the image, setting parameters changes what is drawn by the derivative of the parameter; copies draw the same and share nothing; the parameters reported are those drawn; and a sky read from the table written by write_fits draws the same.", "quantifier": "for all control points, spline orders, coefficients, frozen sets and sequences of changes", "why_tests_cant": "A test sees some sequence of changes on one sky; that the coefficients held by scipy and those reported as parameters are one array after any sequence, and which positions survive a table of integers, needs an argument for all of them.", "anchors": ["tractor/splinesky.py:53-135", "tractor/splinesky.py:211-261", "tractor/utils.py:756-792"]}
{"id": "C86", "title": "A tangent-plane coordinate system exposes its header values as parameters that act consistently", "statement": "The parameters of a TanWcs are the values of its Tan header and an offset: what is set is what is reported, setting one again restores all; positions and pixels are inverse to each other; the CD matrix told at a pixel, its inverse and the pixel scale are those used to convert positions; copies and subimages convert the same (shifted) positions and share nothing; each parameter can be told from the others, changes the hash key and has bounds and a step size.", "quantifier": "for all headers, offsets, frozen sets and sequences of changes", "why_tests_cant": "A test converts a few positions with one header; whether values cached at construction still hold after any sequence of parameter changes, and which objects share a header, needs an argument over all sequences.", "anchors": ["tractor/wcs.py:153-370", "tractor/utils.py:710-806", "tractor/basics.py:125-165"]}
{"id": "C87", "title": "A constant surface brightness adds its counts per square arcsecond to all pixels", "statement": "The model of a ConstantSurfaceBrightness has in each pixel of the image, or of the model mask, the counts of the brightness times the area of a pixel; its parameter derivatives are the differences of these models per step and leave the brightness unchanged; the value at a pixel depends neither on the mask nor on whether the image is a subimage; it works with each coordinate system.", "quantifier": "for all coordinate systems, image sizes, masks, brightnesses and frozen sets", "why_tests_cant": "A test draws one model on one image; that each subimage and coordinate system gives the same value per pixel concerns all of them.", "anchors": ["tractor/basics.py:36-123", "tractor/wcs.py:45-46", "tractor/wcs.py:241-246", "tractor/ducks.py:425-431"]}
{"id": "C88", "title": "Dust maps are interpolated between the pixels around a position", "statement": "SFDMap.ebv gives for each position, whichever others are asked for, the bilinear interpolation of the map of its hemisphere at its pixel, leaving out pixels without data (zero): only pixels around the position matter, the value lies in their range and is zero only if none has data; positions off the map are refused. extinction multiplies it with the coefficient of each filter, refusing unknown filters; shorter wavelengths are dimmed more.", "quantifier": "for all maps (any size, any zero pixels), lists of positions and filters", "why_tests_cant": "A test looks up some positions far from the edges of the maps; positions within half a pixel of an edge and all patterns of missing pixels are not met.", "anchors": ["tractor/sfd.py:26-40", "tractor/sfd.py:66-117"]}
{"id": "C89", "title": "Forced photometry of overlapping tiles reports each source from one tile, the nearest", "statement": "unwise_forcedphot reports for each source and band the flux, inverse variance, statistics, exposures, date and tile name of one tile, that with the nearest centre among those whose image the source is on, whatever the order of the tiles; all sources on or around an image are fitted together; a source on no image is left unchanged and has zero flux and inverse variance; magnitudes and their errors are those of the fluxes.", "quantifier": "for all catalogues, lists of tiles (any order, overlap and region), bands and results of the fits", "why_tests_cant": "A test runs one catalogue on one or two tiles; which tile wins depends on the order of the tiles, on which sources lie in margins and on regions cutting the tiles.", "anchors": ["wise/forcedphot.py:18-309", "tractor/brightness.py:205-208"]}
{"id": "C90", "title": "A Tractor's rendering options govern everything it renders, also after pickling", "statement": "Each option a source sees when rendered by a Tractor, for a model patch, a model or chi image, a derivative, an optimization step or forced photometry, is that given to the call if any, else that given to the Tractor as model_kwargs; a pickled and unpickled Tractor has the same images, catalog, masks, thawed lists, optimizer and options and renders the same.", "quantifier": "for all images, catalogues, masks, option dictionaries of the Tractor and of the call, and all ways sources use the options", "why_tests_cant": "Options are rarely given in tests, and a missing option changes pixel values slightly or not at all in a given example; tests cannot range over all options and ways of calling.", "anchors": ["tractor/engine.py:113-177", "tractor/engine.py:210-339", "tractor/engine.py:389-479", "tractor/optimize.py:16-222", "tractor/lsqr_optimizer.py:11-17", "tractor/lsqr_optimizer.py:253-315", "tractor/image.py:101-121"]}
{"id": "C91", "title": "SDSS catalogue rows become the right Tractor sources", "statement": "For any SDSS catalogue table and any choice of region, object cuts, bands and classification, the sources returned are, in table order, exactly one for each requested row that is a star or a galaxy: a point source with the PSF fluxes for a star, and for a galaxy a de Vaucouleurs, exponential or composite one by its deV fraction, at the row's position, with the catalogued shapes (radius at least 1/30, angle negated) and the catalogued flux in each band (the parts of a composite adding up to it); the row numbers returned name those rows; extra bands start as documented.", "quantifier": "all tables, all rows, all regions and flags, all lists of bands and extra bands", "why_tests_cant": "Depends on the combination of cuts, flags, class fractions, bands and returned indices over arbitrary tables; tests fix one field and compare a handful of objects.", "anchors": ["tractor/sdss.py:197-513"]}
{"id": "C92", "title": "Bright SDSS stars are drawn with the wings of the SDSS profile", "statement": "The patch of the SDSS bright-star profile sums to one, is the profile of two Gaussians and a power law up to one factor at every pixel within its radius, and that radius is large enough that no part of the power law above the tolerance is cut off; a source with thresholds is drawn, for any counts, as counts times a mixture of this patch and the ordinary PSF whose bright share is zero up to thresh2, one from thresh on, and linear between.", "quantifier": "all profiles, positions, tolerances, thresholds, counts and ordinary PSF patches", "why_tests_cant": "The radius depends on five real parameters and the tolerance, the mixture on thresholds and counts; tests see few values and cannot see what was cut off.", "anchors": ["tractor/sdss.py:33-157"]}
{"id": "C93", "title": "An image made from an SDSS frame shows the requested part of the frame at its place on the sky", "statement": "Loading an SDSS frame, whole or for a region of interest given by pixels, by a position and half-size, or by ranges of positions, gives an image whose pixels are those of the frame, whose coordinate system puts each pixel where the frame has it, whose inverse variance is that of the frame (or the constant one at the centre) and zero at masked pixels, and whose PSF is that of the centre of the region; a region asked for by positions contains them; a pixelized PSF is trimmed without losing a nonzero pixel or moving its centre; and after a failure the files are fetched again.", "quantifier": "all frames, masks, regions, PSF kinds and options", "why_tests_cant": "Frame, masks, astrometry and regions vary independently; an offset by half a pixel or a mask in the wrong coordinates shows only for particular positions.", "anchors": ["tractor/sdss.py:650-907", "tractor/sdss.py:983-1023", "tractor/imageutils.py:5-60"]}
{"id": "C94", "title": "The GPU optimizer fits any Tractor, as its parent class does unless there is one source on frozen images", "statement": "With the GPU-friendly and the GPU optimizer, a Tractor that is not a single source (with or without a constant background) on frozen images is optimized exactly as with the parent class; a single source is fitted with exactly the images that have a model mask for it, which are those where the parent class has derivatives, and with the same options; every thawed parameter moves by the number computed for it; and an optimizer that is pickled works in the other process.", "quantifier": "all Tractors, catalogues, image lists, masks, options and ways of choosing the array module", "why_tests_cant": "The choice depends on types of sources, frozen states, masks and options together, and pickling on what the process did before.", "anchors": ["tractor/gpu_optimizer.py:24-95", "tractor/gpu_optimizer.py:133-182", "tractor/lsqr_optimizer.py:253-315", "tractor/smarter_dense_optimizer.py:37-52"]}
{"id": "C95", "title": "All ways of evaluating a mixture of Gaussians agree", "statement": "evaluate, evaluate_1, evaluate_2 and evaluate_3 give the mixture's value at every point, up to what their cuts of small exponentials leave out; evaluate_grid has in each pixel what evaluate gives for its position; and evaluate_grid_approx gives the same with pixels below minval left out, so that no pixel is wrong by more than minval.", "quantifier": "all mixtures of dimension two, points, boxes, offsets and minimum values", "why_tests_cant": "Four pieces of code with different cuts and layouts compute one function of real arguments; the growing of the region in the approximate one depends on the whole surface.", "anchors": ["tractor/mixture_profiles.py:224-303", "tractor/mix.i:19-42", "tractor/mix.i:319-446", "tractor/mix.i:650-1090"]}
{"id": "C96", "title": "The calibrations of SDSS and CFHT images are parameters that act consistently", "statement": "A SdssWcs has the values of its AsTrans and an offset as parameters: what is set is what is reported, setting the old value again restores all, positions and pixels are inverse to each other, the matrix told and its inverse are those at the pixel, the pixel scale is in arcseconds as documented, step sizes can be set and there is a copy; the CFHT and SDSS photometric calibrations agree on the counts of a magnitude, taking a derivative by their parameter leaves it as it was, copies are equal and objects with the same hash key give the same counts.", "quantifier": "all values, offsets, frozen sets, headers, bands and magnitudes", "why_tests_cant": "A test tries one header and a few changes; that no sequence of changes, copies and derivatives breaks the object is a statement about all of them.", "anchors": ["tractor/sdss.py:909-1023", "tractor/cfht.py:31-103", "tractor/sdss_dr7.py:207-291", "tractor/engine.py:312-320", "tractor/ducks.py:425-431"]}
{"id": "C97", "title": "Reading the WISE catalogues returns every source asked for, once", "statement": "wise_catalog_radecbox and allwise_catalog_radecbox return the rows of the catalogue, which is stored in files by declination, whose positions lie in the given box of RA and Dec (bounds included), each row once, in the order of the files and with the columns asked for, or None if there is none, opening only files whose range of declination meets the box; allwise_catalog_wcs likewise returns the rows that fall on the image or within the given number of pixels of it; the ranges of the files cover the sky from pole to pole without gaps.", "quantifier": "all boxes, images, margins, catalogues and columns", "why_tests_cant": "Tests use a box or two inside one file; a source lost at the limit between two files, or in the corner of the margin, shows only for particular positions.", "anchors": ["wise/wisecat.py:7-130", "wise/allwisecat.py:8-78"]}
{"id": "C98", "title": "unWISE images show the requested part of a tile, and overlapping tiles are found", "statement": "get_unwise_tractor_image reads the tile from the first of the given directories that has all its files (IOError if there is none) and returns the requested region: pixel for pixel the coadd's values, the inverse variance (a quarter of it in band 4) where the tile has exposures and zero elsewhere, the numbers of exposures, a WCS in which sky positions keep their place on the image, the noise level and time of the coadd; None if the region misses the tile. unwise_tiles_touching_wcs returns the tiles of the atlas that overlap the image, with an empty table if there is none.", "quantifier": "all directories, tiles, bands, regions, images and atlases", "why_tests_cant": "No test reads unWISE files; a shifted cutout or a lost tile shows only as slightly wrong photometry.", "anchors": ["wise/unwise.py:14-197"]}
{"id": "C99", "title": "A rebinned image shows the same intensities at the same places", "statement": "scale_sdss_image(tim, S) returns an image of floor(H/S) x floor(W/S) pixels, each the inverse-variance-weighted mean of its bin of S x S pixels (zero without weight) with the summed weight, dropping remainder pixels, and calibrations to match: a position is in the pixel whose bin holds the pixel it was in, and sources and sky drawn into the result have at the middle of each bin the intensity they have there in the original.", "quantifier": "all images, scales, positions, brightnesses and Gaussian-mixture PSFs", "why_tests_cant": "No test calls it; a shift by half a pixel or a wrong power of S in the calibration shows only as slightly wrong fits.", "anchors": ["tractor/sdss.py:604-648", "tractor/shifted.py:121-152", "tractor/psf.py:432-437"]}
{"id": "C100", "title": "The bundled ordered dictionary keeps its keys in the order of first insertion", "statement": "The OrderedDict that comes with the Tractor (the model cache's fallback) behaves, for every sequence of operations (setting, deleting, reading, pop, popitem from either end, setdefault, update, clear, len), like a list of pairs in which a new key goes to the end and an existing key keeps its place: the same values and exceptions, iteration in both directions ends and shows the keys in that order, each once; copies and pickled dictionaries have the same items, and == compares items in order.", "quantifier": "all sequences of operations, keys and values", "why_tests_cant": "A mistake in the links of the list shows only after particular sequences of insertions and deletions, possibly as an endless iteration.", "anchors": ["tractor/ordereddict.py:26-129", "tractor/cache.py:47-51"]}
{"id": "C101", "title": "An array wrapped as parameters is read and written in place", "statement": "With the values held in a numpy array (NpArrayParams), getParams lists the thawed entries row by row and getAllParams all of them; setParams, setParam and setAllParams write into the array itself, touching exactly the named entries and keeping the shape; there is one bound and one largest step for each parameter, and copy() gives an equal object.", "quantifier": "all two-axis arrays in either memory order, frozen entries and vectors", "why_tests_cant": "Whether a write reaches the array depends on its memory order, which two arrays with the same entries need not share.", "anchors": ["tractor/utils.py:1272-1296", "tractor/utils.py:710-806"]}
{"id": "C102", "title": "The galaxy profile functions are smooth, falling profiles with half their light inside r = 1", "statement": "profile_exp and profile_dev work entry by entry; they are positive and strictly falling from the centre to 4 and 8 half-light radii and zero beyond, differentiable everywhere including where the truncation starts and ends; the first is a pure exponential out to 3, the second within 2.2 per cent below the r^(1/4) law from 0.1 to 7; and 51 and 53 per cent of their light lies inside r = 1.", "quantifier": "all real radii", "why_tests_cant": "Tests evaluate a handful of radii; monotonicity, smoothness at the joins and integrals are statements about all of them.", "anchors": ["tractor/galaxy_profiles.py:1-75"]}
{"id": "C103", "title": "The mixtures of Gaussians behind the galaxies follow the profiles they stand for", "statement": "The profiles of ExpGalaxy and DevGalaxy have unit flux, positive components and growing widths; scaled to the same flux within half a per cent, the exponential mixture is within 2.1 per cent of profile_exp out to 2.7 half-light radii and within a thousandth of the central brightness everywhere beyond, the de Vaucouleurs one within 8 per cent of profile_dev out to 6 and 1/20000 of the centre beyond; the point-like core of the latter carries the part of the light that the softening at the centre removes; the radius re holds half the light of each galaxy type, and the radius to which galaxies are drawn all but 0.6 per cent.", "quantifier": "all points of the plane", "why_tests_cant": "The tables are numbers without structure; only a bound over all radii shows that no digit is wrong in a way that matters.", "anchors": ["tractor/mixture_profiles.py:17-45", "tractor/galaxy.py:711-763", "tractor/galaxy_profiles.py:1-75"]}
{"id": "C104", "title": "A Sersic galaxy's effective radius holds half its light and its profile follows Sersic's law", "statement": "At every tabulated Sersic index the profile that SersicMixture returns is positive at all radii and falls outwards (although components of index below 0.5 are negative), half of its light lies inside one effective radius, and its surface brightness is that of Sersic's law of the same index, radius and flux.", "quantifier": "all rows of the tables in use, all splines through the nodes, all radii", "why_tests_cant": "The tables are some 700 numbers without structure; positivity with cancelling components, and closeness to a law, are bounds over all radii.", "anchors": ["tractor/sersic.py:34-300"]}
{"id": "C105", "title": "A SourceExtractor model-fit catalogue becomes the sources it describes, row by row", "statement": "get_se_modelfit_cat gives, for each row on its own and in order, nothing when it is fainter than maglim, a point source when the PSF fit is the better one, an exponential or de Vaucouleurs galaxy when only the disk or the spheroid is bright enough, and otherwise a composite whose two parts have the fluxes of the two magnitudes; half-light radii are in arcseconds (1.68 scale lengths for the disk), and isrcs names the row of each source. _dr7_getBrightness gives the magnitudes of the bands asked for.", "quantifier": "all catalogues, magnitude limits and band lists, unknown (NaN) magnitudes included", "why_tests_cant": "Variables left over from an earlier row make a row's source depend on which rows came before it, for NaN magnitudes only.", "anchors": ["tractor/source_extractor.py:7-65", "tractor/sdss_dr7.py:4-32"]}
{"id": "C106", "title": "The report of what is frozen agrees with what is free", "statement": "getParamStateRecursive lists every member and parameter of an object once, a group before its contents, by its dotted name, with whether it is itself thawed and whether everything around it is; the parameters it marks as free are those getParamNames lists.", "quantifier": "all trees of groups, parameter lists and scalars, with any freezing at any depth", "why_tests_cant": "The number of nestings and freezings is unbounded, and the meaning of the last column only shows for frozen entries of thawed groups.", "anchors": ["tractor/utils.py:529-536", "tractor/utils.py:1088-1101", "doc/intro.py"]}
{"id": "C107", "title": "Scalar parameters compare as their values", "statement": "<, <=, >, >=, == and != between two ScalarParams (Mag, Flux, ConstantSky, SersicIndex, ...) give what the same comparison of their values gives.", "quantifier": "all values, infinities and NaN included, and all operands", "why_tests_cant": "The comparisons are derived from one another by total_ordering, which is only right for totally ordered values; floats are not.", "anchors": ["tractor/utils.py:16-23", "tractor/utils.py:307-332"]}
{"id": "C108", "title": "Box sums from an integral image, in floating point", "statement": "A box sum read off the integral image differs from the sum of the pixels of the box by a bounded number of roundings of the total light left of and below its upper right corner; whole counts give whole, exact sums as long as twice their total fits the mantissa; a box of pixels that are not negative has no negative sum.", "quantifier": "all images and boxes, any precision", "why_tests_cant": "The error depends on all the pixels outside the box, so that it shows only for particular images; floats are too many to try.", "anchors": ["tractor/integral_image.py:6-30"]}
{"id": "C109", "title": "The log-likelihood, in floating point", "statement": "However numpy orders its additions, the computed log-likelihood is not positive, is zero only for a perfect fit, and has a relative error of about the longest chain of additions times 2^-53; one pixel of chi is right to two roundings of float32; of two models the one with the higher likelihood gets the higher computed value.", "quantifier": "all numbers of images and pixels, all pixel values, all orders of summation", "why_tests_cant": "A test compares with the same floating-point sum; which orders and values make rounding matter cannot be enumerated.", "anchors": ["tractor/engine.py:455-479"]}
{"id": "C110", "title": "The model image, in the float32 it is made in", "statement": "Each pixel of the model image is sky plus sources up to one rounding per source that reaches the pixel (two for float64 patches); it is at least the sky and each source when none is negative; whole counts up to 2^24 are exact; the order of the catalogue does not matter.", "quantifier": "all catalogues, orders, shapes and pixel values", "why_tests_cant": "All orders of all catalogues; differences show only for special values.", "anchors": ["tractor/engine.py:424-445", "tractor/patch.py:341-354"]}
{"id": "C111", "title": "Stars drawn from an oversampled PSF stamp", "statement": "A star drawn with a PSF stamp sampled at another spacing than the image has, at every image pixel of its patch, the value of the stamp at that pixel's offset from the star; a model mask only selects pixels, also for a normalised PSF; the patch holds every pixel inside the stamp; a radius keeps the pixels within it; a star is skipped only if none of its patch is on the image.", "quantifier": "all stamps, samplings, positions, masks, radii and interpolations", "why_tests_cant": "Positions and samplings are real numbers; edges are lost for particular sizes and offsets only.", "anchors": ["tractor/psf.py:82-106", "tractor/psf.py:284-345", "tractor/psf.py:962-967", "tractor/pointsource.py:102-125"]}
{"id": "C112", "title": "A wrapped calibration acts as the calibration it wraps", "statement": "The parameters, names, steps, bounds and frozen state of a calibration wrapped for a subimage or a rebinned image (ShiftedPsf, ShiftedWcs, ScaledWcs, ScaledPhotoCal) are those of the wrapped object, also inside an image and for wrappers of wrappers; whatever is set through the wrapper is set on the object; an image with wrapped calibrations can be fitted by every optimizer.", "quantifier": "all parameter objects, depths of wrapping, groups, vectors", "why_tests_cant": "The wrapper forwards some methods only; which of them matter depends on what is frozen and on the other members of the group.", "anchors": ["tractor/shifted.py:31-60", "tractor/utils.py:195-304", "tractor/utils.py:1052-1199", "tractor/constrained_optimizer.py:84-159"]}
{"id": "C113", "title": "Derivatives by differences survive floating point", "statement": "The derivatives the tractor takes by stepping a parameter (fluxes, positions, calibration parameters) are, as computed in floating point, those of the exact difference quotient up to roundings of the operands over the step: a flux derivative is the scale of the calibration and is not missing unless the flux drowns the step; a position derivative is off by the rounding of the stepped position; a pixel of an image derivative is as good as the pixels of the two model images.", "quantifier": "all floating-point types, fluxes, scales, positions, steps, Lipschitz renderings, pixel values", "why_tests_cant": "The loss depends on the size of the parameter against the step; tests use moderate values.", "anchors": ["tractor/pointsource.py:200-240", "tractor/galaxy.py:182-195", "tractor/engine.py:306-324", "tractor/brightness.py:336-342"]}
{"id": "C114", "title": "A fit only ever writes free parameters, however it ends", "statement": "Running an optimizer on a Tractor (derivatives by stepping, update direction, line search, repeated) changes nothing but the values of thawed parameters: frozen values, flags, steps, bounds and priors are as before, also when an evaluation raises or the user interrupts at any point; a fit that ends normally is no worse than its start, a search without an accepted step restores the parameters exactly, and an interrupted fit leaves the parameters where they were.", "quantifier": "all parameter trees, freezes, log-probabilities, directions, step lists, bounds, moments of failure", "why_tests_cant": "The moment of an interrupt is arbitrary, and parameters are stepped and restored many times in each iteration.", "anchors": ["tractor/optimize.py:425-470", "tractor/constrained_optimizer.py:12-159", "tractor/lsqr_optimizer.py:253-326", "tractor/engine.py:306-345", "tractor/pointsource.py:204-240", "tractor/galaxy.py:182-212"]}
{"id": "C115", "title": "Forced photometry fits the model that the Tractor draws", "statement": "For every flux vector that forced photometry tries (and every sky level, if the sky is fitted), the model image it compares with the data is, at every pixel of every image, the image that getModelImage returns after setParams with these values, and its chi is that of the Tractor; each free parameter is multiplied with the unit-flux model of the brightness it belongs to.", "quantifier": "all catalogs of sources with one or two profiles and any frozen parameters, images, photometric scales, bands, model masks, sky levels, fluxes", "why_tests_cant": "The model is assembled from separate renderings of frozen and thawed sources that are matched to parameters by counting only; agreement is needed for all catalogs, freezes and fluxes.", "anchors": ["tractor/optimize.py:Optimizer.forced_photometry", "tractor/optimize.py:Optimizer._get_umodels", "tractor/optimize.py:Optimizer._getims", "tractor/engine.py:Tractor.getModelImage"]}
{"id": "C116", "title": "Forced photometry ends at the least-squares fluxes, and its inverse variances are the curvature there", "statement": "Without priors, damping and minimum flux, and if the update direction is a least-squares solution, the fluxes (and sky levels) forced photometry ends with minimise chi-squared over all fluxes and sky levels; the fit does not depend on the starting fluxes, nor do the fluxes themselves if no combination of sources cancels; moving one flux by z from the fit raises chi-squared by z^2 times its reported inverse variance, which thus tells how well the flux is known.", "quantifier": "all images, errors, unit-flux models, scales, numbers of sources, starting fluxes and sky levels", "why_tests_cant": "Optimality is a statement about all other flux vectors, and independence of the start one about all starts.", "anchors": ["tractor/lsqr_optimizer.py:43-251", "tractor/optimize.py:378-520"]}
{"id": "C117", "title": "The sparse, dense and compact optimizers compute the same update", "statement": "For the same derivatives, chi images and priors, the sparse least-squares optimizer, the dense one and the compact dense one return updates that change every pixel of every image by the same amount to first order; where no step leaves all pixels and priors unchanged, the updates are equal. So the choice of optimizer (and of column scaling in the dense ones) does not change the fit.", "quantifier": "all parameter trees, priors, images, derivative patches (clipped, empty, absent), exact least-squares solvers", "why_tests_cant": "The three assemble different matrices (rows for all images, for a full image stack, for bounding boxes only); a test compares them on a few scenes, not for all patch placements and rank-deficient problems.", "anchors": ["tractor/lsqr_optimizer.py:330-560", "tractor/dense_optimizer.py:10-250", "tractor/smarter_dense_optimizer.py:37-306"]}
{"id": "C118", "title": "Constrained steps keep bounds, limits and direction when arithmetic rounds", "statement": "With every operation rounded to nearest (any precision), each point the constrained optimizer proposes from a start inside the bounds lies inside the bounds exactly, uses a step fraction no larger than requested, moves no parameter further than its maximum step and lies on the line along the update direction; the last three up to a number of roundings that grows only with the number of parameters. A step that meets no limit is the rounded start + fraction * direction.", "quantifier": "all numbers of parameters, starts inside bounds, bounds, limits, directions, non-negative step fractions, precisions", "why_tests_cant": "How rounding adds up over successive reductions of the fraction depends on all numbers involved; the worst cases are single bit patterns.", "anchors": ["tractor/constrained_optimizer.py:84-159"]}
{"id": "C119", "title": "Masked pixels have no influence on a fit", "statement": "Pixels whose inverse error is zero do not matter: images that differ only in their data at such pixels give the same log-likelihood, the same least-squares system, the same fitted parameters, number of steps and gains, and the same forced-photometry fluxes, sky levels and inverse variances; an image all of whose pixels are masked counts for nothing in the log-likelihood.", "quantifier": "all images, masks, data in masked pixels, models, derivatives, priors, step fractions, numbers of steps, starting parameters", "why_tests_cant": "The data in masked pixels are arbitrary (saturated, interpolated, undefined) and enter the differences from the model at every step of the iteration; a test tries a few values.", "anchors": ["tractor/engine.py:455-497", "tractor/lsqr_optimizer.py:12-326", "tractor/lsqr_optimizer.py:328-644", "tractor/optimize.py:425-510", "tractor/image.py:40-43"]}
{"id": "C120", "title": "The order in which images and sources are listed does not matter", "statement": "Listing the images or the sources of a Tractor in another order rearranges the parameter vector and changes nothing else: the log-likelihood and the log-prior are the same; the parameter steps that solve the linearised problem (pixels and Gaussian priors) are the same, rearranged; and fits that take rearranged steps go through the same gains, stop after the same number of steps and end at the same parameters, rearranged.", "quantifier": "all images, models, groups of parameters nested to any depth with any frozen members and Gaussian priors, all rearrangements at all levels, all derivatives", "why_tests_cant": "Rows and columns of the least-squares system are laid out by the order of the lists at several levels at once; a test fixes one order.", "anchors": ["tractor/lsqr_optimizer.py:328-644", "tractor/lsqr_optimizer.py:280-326", "tractor/engine.py:455-497", "tractor/utils.py:1127-1269", "tractor/optimize.py:425-470"]}
{"id": "C121", "title": "Units of the images, and a common factor of the errors, do not matter", "statement": "Giving an image in other units (data, models and derivatives times k, inverse errors divided by k, k different for each image) leaves the log-likelihood and the solutions of the linearised problem, with any Gaussian priors, the same. Multiplying all inverse errors by one factor multiplies the log-likelihood by its square and, without priors, leaves the solutions the same. Adding the same image to data and model leaves the log-likelihood the same.", "quantifier": "all images, models, derivatives, factors (one per image), groups of parameters with any frozen members and Gaussian priors", "why_tests_cant": "A test compares two runs in two units; the statement is an invariance under all rescalings of any number of images, through the row and column layout of the least-squares system.", "anchors": ["tractor/lsqr_optimizer.py:328-644", "tractor/engine.py:455-497", "tractor/utils.py:1237-1269"]}
{"id": "C122", "title": "A fit that starts at a perfect model stays there", "statement": "If the model equals the data at all pixels that are not masked and the log-prior is at its largest, the optimization loop returns after its first step with the parameters unchanged and a gain of zero, whatever update direction the least-squares solver proposes and whatever step sizes are tried. The same holds at any parameters with the largest log-probability.", "quantifier": "all scenes, images, masks, directions of the right length, step sizes, thresholds >= 0, numbers of steps >= 1", "why_tests_cant": "Any direction may come back from the solver, also a wrong one; a test sees those of a few runs.", "anchors": ["tractor/optimize.py:425-470", "tractor/lsqr_optimizer.py:280-326", "tractor/engine.py:455-497"]}
{"id": "C123", "title": "Freezing parameters fits the others with these held", "statement": "Freezing parameters or members by name, at any depth, removes exactly those parameters from the vector and leaves the values of the others. The least-squares system of the fit is then that of the unfrozen fit with the frozen parameters held: its objective (pixels and Gaussian priors) differs by a constant from the objective of the full system at steps that are zero for the frozen parameters, so its solutions are the best among the steps that do not move them, also if images have derivatives of frozen parameters only.", "quantifier": "all groups of parameters nested to any depth with any frozen members and Gaussian priors, all names passed to freezeParam and freezeParamsRecursive, all images and derivatives", "why_tests_cant": "Freezing renumbers the columns, the prior rows and the image rows of the system at once; a test fixes one tree and one set of frozen names.", "anchors": ["tractor/utils.py:538-554", "tractor/utils.py:1052-1071", "tractor/utils.py:1127-1269", "tractor/lsqr_optimizer.py:328-644"]}
{"id": "C124", "title": "A fit of linear parameters is done after one step", "statement": "If the model images are linear in the free parameters (fluxes, a constant sky) and the derivatives are exact, the least-squares objective differs by a constant from -2 times the log-probability (pixels and Gaussian priors) of the parameters moved by the step. An optimize_loop whose step sizes reach 1 in rising order and whose first direction solves this system then ends after at most one step, at parameters whose log-probability no other parameters exceed. If the system has one solution only, these are the parameters at the start moved by it, and no other parameters have as large a log-probability.", "quantifier": "all groups of parameters nested to any depth with Gaussian priors, all images and inverse errors, all linear models, all rising step sizes below 1 and any above, all thresholds dchisq >= 0, any later directions", "why_tests_cant": "A test checks that one fit ends near the expected flux; that the end is the maximum over all parameter vectors is a claim about infinitely many alternatives.", "anchors": ["tractor/lsqr_optimizer.py:280-326", "tractor/lsqr_optimizer.py:328-644", "tractor/optimize.py:425-470", "tractor/engine.py:455-497", "tractor/utils.py:1237-1269"]}
{"id": "C125", "title": "A hybrid PSF is its pixelized PSF with Gaussians added", "statement": "Reading or writing any attribute of a HybridPixelizedPSF reads or writes the one of its pixelized PSF: a value written is read back from the hybrid and from the PSF, all other attributes keep their values, and other PSFs are untouched. Shifting, copying and pickling give hybrids with the same attributes and Gaussians; a copy can be changed without effect on the original.", "quantifier": "all heaps of arrays, Gaussian, pixelized and hybrid PSFs, all attribute names and values, all samplings and Lanczos orders", "why_tests_cant": "Delegation is a claim about every attribute name and every way in which objects share their parts; tests read the few attributes they use.", "anchors": ["tractor/psf.py:600-656", "tractor/psf.py:68-135"]}
{"id": "C126", "title": "Cutting an image in pieces does not change the fit", "statement": "Replacing an image by two subimages that together cover it once (cut along rows or columns) leaves the log-likelihood unchanged, and gives a least-squares system whose objective differs only by a constant from that with the whole image, so that it has the same solutions.", "quantifier": "all lists of images, models and derivatives, all cuts between rows or columns (also at the edges), all parameter trees with priors", "why_tests_cant": "The claim compares two different fits for every image, every way of cutting and every set of overlapping derivative patches; tests fit one arrangement.", "anchors": ["tractor/image.py:82-92", "tractor/engine.py:475-486", "tractor/lsqr_optimizer.py:328-560"]}
{"id": "C127", "title": "Masked images and masked edges can be left out of the fit", "statement": "Leaving out an image whose inverse errors are all zero, or cutting off rows or columns at an edge of an image whose inverse errors are all zero, changes neither the log-likelihood nor the solutions of the least-squares system.", "quantifier": "all lists of images, models and derivatives, all masked images, all masked strips at any of the four edges, all parameter trees with priors", "why_tests_cant": "The claim compares two fits with different numbers of pixels and images for all data, all derivative patches and all priors; tests fit one arrangement.", "anchors": ["tractor/image.py:82-92", "tractor/engine.py:475-486", "tractor/lsqr_optimizer.py:328-560"]}
{"id": "C128", "title": "Fitting exposures and fitting their coadd is the same", "statement": "For two images of the same pixels, with the same model and derivatives, replacing them by the inverse-variance weighted mean (weights added, data averaged with the weights) changes the log-likelihood by a number that depends neither on the model nor on other images, and gives a least-squares system with the same solutions.", "quantifier": "all pairs of images and coadds, all other images, models, derivatives and parameter trees with priors", "why_tests_cant": "The claim compares fits with different numbers of images for all data, weights and models; a test compares two numbers for one case and within a tolerance.", "anchors": ["tractor/engine.py:475-486", "tractor/engine.py:455-473", "tractor/lsqr_optimizer.py:328-560"]}
