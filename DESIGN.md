# Design: formal model of `caustics` in Rocq/Coq 8.16.1

## 1. What is modelled and how

The library at the pinned commit in `/repo` is read as text and transcribed,
function by function, into Gallina (`rocq/theories/*_Model.v`). Every
definition carries a comment naming the file and lines it models and any
simplification.

* **Numbers.** Array elements are elements of Coq's `R`. Floating point rounding,
  overflow and dtype handling are *not* modelled. Where the code can produce a NaN or
  infinity on purpose (division by zero, root or log of a negative number,
  `acos` out of range) and this matters for a property, the model uses `option R`
  (`None` = NaN/inf) or an explicit side condition, never the totalised `x/0 = 0` of Coq.
* **Arrays.** Broadcasting over query positions is modelled pointwise (one query point).
  Images, cubes, tables are indexed functions `nat -> nat -> R` / lists with
  explicit sizes, index arithmetic in `Z`/`nat`, including Python's negative-index wrap.
* **Exceptions** are values (`option`, or the small result type of `Py.v`).
* **Modules/caskade.** The parameter graph is modelled only where a property is about it
  (`angle_system`, `parametrization`, `build_simulator`): state machines over explicit states.
* **Autograd** is modelled by the mathematical derivative (`Derive` of Coquelicot, or the relation
  `D2 f x y fx fy`, the Frechet derivative in the plane, in the theorems). That this is what forward-mode
  differentiation returns is itself a theorem (C95): `Ad_Model.v` models the operation-by-operation rules of torch
  (value and tangent, each finite, NaN, or of unknown non-finite kind), `AdLens_Model.v` the formulas as they are traced.
  Reverse mode is modelled in `Rev_Model.v` (C97). The EPL series is in `AdEpl_Model.v`, interpolated maps in `AdPix_Model.v`.
  `AdJac_Model.v` nests one differentiation in another (C138): the inner one is traced as an expression, which the outer one differentiates.
* **Linear solves, root finders.** `solve` = any solution of the linear system; the
  root finder of `forward_raytrace` = an arbitrary function in the statements about the triangle search, the modelled `batch_lm` in C110.
* **FFT.** `fft2`, `rfft2`, `irfft2` are the literal finite sums of complex exponentials
  (`Dft_Model.v`); that a product of transforms is a circular convolution is proved
  (`Dft_Proofs.v`), not assumed.

Layout per topic: `X_Model.v` (definitions with citations), `X_Spec.v` where the specification needs its own
definitions, `X_Proofs.v` (lemmas), `X_Props.v` (theorem statements, each proved from a lemma, an
`Example` showing the hypotheses are met by a concrete non-trivial case, and `Print Assumptions`).

## 2. Trusted base

* The Coq 8.16.1 kernel, with its bytecode evaluator (`vm_compute`, a few steps). No plugins of our own.
* Axioms: only those of the Coq standard library used by `Reals`/Coquelicot:
  `ClassicalDedekindReals.sig_forall_dec`, `ClassicalDedekindReals.sig_not_dec`,
  `FunctionalExtensionality.functional_extensionality_dep`, and for some lemmas
  `Classical_Prop.classic`. Section 6 lists them theorem by theorem.
* The transcription from Python to Gallina (readable beside the cited lines).
* Idealisations listed in section 1.

## 3. Plan by property

| id | model | proof |
|----|-------|-------|
| C01 | translate_rotate/derotate over R, optional phi | trig identities, ring |
| C02 | flip_axis_ratio with its branch | cases on q, quadratic forms |
| C03 | linspace + broadcasting as index functions | field |
| C04 | gnomonic pair with own arctan2 | polar lemma for arctan2, branch cases |
| C05 | CD matrix, SIP as list fold | linear algebra, C04 for world |
| C06 | nodes/weights as any list satisfying the moment equations of Gauss-Legendre | sums of moments; n=1,2,3 rules shown to satisfy them |
| C07, C08 | list tables, searchsorted, Hermite, negative index wrap | induction over table; C08 refuted below first knot (witness) |
| C09, C10 | images nat->nat->R, clamp, floor, round | floor/clamp lemmas, convexity |
| C11 | BC table literally, reshape, polynomial sums | ring on the 16 coefficients, D2 |
| C12 | bicubic_kernels, PixelatedPotential | refuted with an affine map; the corrected sign/axes variant characterised |
| C13 | chunk lists of both backends | induction over the number of chunks |
| C14 | BatchedPlane/SinglePlane | from C13 |
| C15 | cluster_means with both index lists | membership/length by induction; distinctness refuted |
| C16, C17 | LM step/loop over vectors | invariant over iterations; C17 refuted by witness |
| C18 | gaussian blocks | positivity, sum, reindexing |
| C19-C22 | triangles over R*R, list folds | sign cases, nsatz/nra, induction |
| C23-C25 | search loop with result type, arbitrary raytrace and root finder | loop invariant; C25 refuted |
| C26, C27, C28 | conversions, jacobian algebra, finite differences | field, D2 |
| C29 | lists of lenses | Permutation induction |
| C30-C33 | sorted plane loop with Python indexing bug | induction; C31, C33 refuted |
| C34 | time delay | D2 of Fermat surface |
| C35, C36 | abstract comoving distance; FlatLambdaCDM | field; monotonicity |
| C37, C38 | conversions with arctan2 | polar lemma |
| C39, C40 | state machines | induction over histories |
| C41-C57 | lens profiles | D2 calculus library, generic rotation and radial lemmas |
| C45, C48, C53, C57 | same | refuted (softening, chunking, r=1, power/units) |
| C58-C60 | literal DFT, padding, crop | convolution theorem; linearity; C59, C60 refuted |
| C61-C64 | light profiles | real analysis, lists |
| C65-C68 | simulator pipeline on index functions | sums; C65-C67 refuted for non-square fields or PSFs in fft mode |
| C69 | microlens | sums |
| C70 | build_simulator | induction; refuted for identical entries |
| C71 | thick lens | D2 |
| C72-C74 | as above | as above |
| C75, C76 | interpolation table of FlatLambdaCDM with its 500 knots | Hermite monotonicity and error bounds (1/16 on the whole table; 1/500 short of the last cell by a third-order Taylor bound, CosmoTight_Proofs); C76 refuted by a lower bound on the extrapolation |
| C77 | PixelatedPotential through the bicubic interpolator | D2 of the patch polynomial, continuity across patches |
| C78 | PseudoJaffe helpers | limit of an arctan integral |
| C79 | constructor checks and interpolator checks | case analysis; refuted |
| C80 | LensSource setters as a state machine | induction over histories |
| C81 | constants | algebra; pi by Machin's formula |
| C82 | halos as instances of the base class | cancellation of the critical density |
| C83 | Multiplane, SinglePlane | the multi-plane equation (C30) is regrouped; NaN delay by evaluation |
| C84 | SinglePlane, MassSheet, base class | linearity of deflection, derivative and delay |
| C85 | SIS, Point, magnification | radial Jacobian; the lens equation as a quadratic |
| C86 | array backend adapters | invariant of the padding loop; arithmetic of shapes |
| C87 | vmap_n | induction on the depth |
| C88 | projection of halo density | antiderivative of the density along the line of sight and its limits; Taylor bounds for the series window |
| C89-C91 | padding, convolution_mode, convergence of PixelatedConvergence | convolution theorem and reindexing of periodic sums; counterexamples on 2 by 2 and 13 by 13 maps |
| C92 | half-light radius of Sersic | incomplete gamma function of integer order as a derivative; fixed-point bounds of the exponential series, proved sound |
| C93 | finite-difference Jacobian | Taylor's formula with Lagrange remainder, forwards and reflected |
| C94 | all profiles | addition theorems; the angle of a turned vector modulo 2 pi |
| C95 | dual numbers; traced formulas of the lenses | soundness of each rule by induction on formulas; finiteness profile by profile |
| C97 | backward rules over the same formulas | duality with the forward tangents by induction on formulas; all branches inside their domains |
| C96 | the same at the centre | evaluation of the traced formula at the centre; derivative of x f(r) at r = 0 |
| C98 | convergence of EPL, SIE, SIS | mass inside an ellipse as a Riemann integral in elliptical coordinates |
| C99 | shear, convergence and magnification of the round lenses and the SIE | radial and tangential parts of the 2 by 2 Jacobian |
| C100 | SIE near q = 1, against SIS | mean value bounds for atan and the logarithmic form of artanh |
| C101 | EPL series as n_iter grows, against SIE at t = 1 | majorant of the derivative series, differentiation of a limit of functions of two variables; error integral of the t = 1 series |
| C102 | PseudoJaffe, TNFW, Point | enclosed mass substituted into the point deflection; limits at infinity |
| C103 | time_delay of SIS, SIE, EPL, Point | homogeneity of the potential; the images of C85 |
| C104 | the angular unit of all closed-form lenses, PixelatedConvergence, Sersic, raytrace and magnification | every radius scales; linearity of the transforms in the kernel; monotonicity for the two refutations |
| C105 | sign and monotonicity of the convergence of SIS, SIE, EPL, PseudoJaffe, NFW, TNFW | projections of positive falling densities are positive and fall; lower bound of the TNFW projection over the series window |
| C106 | reflection of all closed-form lenses and sources; axis symmetry of SIE, EPL, Sersic, multipoles; m-fold symmetry | oddness of atan, atanh, atan2 mod 2 pi; conjugation through every chunk of the EPL loop; combination with C94 |
| C107 | pixel = mean of the scene over the native pixel (exact for polynomials, limit for continuous scenes, error bound by the slope); total flux | Chasles in two dimensions over the sub-pixels, Gauss rule exactness (C06), uniform continuity |
| C108 | h0 scaling of distances, rays, delays; mass-h0 degeneracy of the mass-parametrised lenses | homogeneity in the distances; induction over the plane loop; cube root of k^3 |
| C109 | LensSource: factor of the PSF irrelevant; single-pixel PSF displaces; bounds of the scene kept; PSFs add up as weighted means; flux conserved | pixels as means of the blurred scene (C66); PSF sums as convex combinations; shifted sums over sub-pixels |
| C110 | the image search ends at the image: never worse than the guess, images stay, affine lenses solved from any guess and found exactly once | Root_Props; damped steps contract the error by L/(a^2+L), so only small steps stop the loop |
| C111 | automatic differentiation of interpolated maps is exact off the pixel-centre lines; forward differences on them | AdPix_Props; the cell is locally constant, so each entry and index is a fixed argument of a polynomial |
| C112 | a lens behind the source leaves its light unbent: true at equal redshifts of the halo models, refuted beyond; there it acts with the opposite sign, and a last plane behind the source shifts the source by its deflection | Behind_Props; the signed distance between the planes is a factor of everything |
| C113 | TNFW tends to NFW without truncation (potential, deflection, convergence); PseudoJaffe is within an explicit error of SIS | Limits_Props; both are written in 1/tau, ln(tau)/tau and the excess of the square root, which all vanish |
| C114 | forward and backward derivatives of a LensSource image are exact when those of the samples are; SIE with Sersic lights in particular; a sample at the centre of a light makes them NaN | AdSim_Props; a relation between functions and traced programs that is preserved by +, -, *, / is carried through the pipeline, the Fourier transforms included |
| C115 | explicit bounds for SIS, Point and SIE; exact shift of position for NFW and TNFW and the limit | Soft_Props; mean value theorem for arctan and arctanh; along the ray from the centre |
| C116 | forward and backward derivatives of PixelatedConvergence are exact in position, centre, scale and map; the gradient with respect to a pixel is the response to that pixel | AdConv_Props; the relation of C114 carried through padding, transform and convolution, then C111 for the interpolation |
| C117 | forward_raytrace finds every image in the field (refuted: the inner image of a Point lens smaller than the grid) | Lost_Props; the triangles of every pass stay right of the lens, and so does the root finder; every image of a nearly affine lens is found (Weak*_Proofs) |
| C118 | forward and backward derivatives of the flux of Microlens and of its error (where not zero) are exact | AdMicro_Props; the relation of C114 carried through mean and standard deviation |
| C119 | Multiplane and SinglePlane differ by at most L_i B_k for every pair of lenses; second order in the strength; exact for two mass sheets | Born_Props; induction over the planes of C30's equation, each share of a deflection being at most 1 |
| C120 | linear interpolation of sampled smooth functions: second-order error, first-order Jacobian error, sharp, convergent under refinement | Approx_Props; convexity of f + M x^2/2, one axis after the other |
| C121 | source moved back: common factor above 1 for halos, growing reduced deflection and Einstein radius, falling critical density and time-delay distance | Farther_Props; efficiency 1 - dc(z_l)/dc(z_s) and the source-free physical quantities of Halo_Proofs |
| C122 | derivatives of SinglePlane and Multiplane (rays, effective deflection, time delay) by either mode, given those of the lenses and the distances; jacfwd of stacks of five kinds of lenses | AdMulti_Props; one proof for both modes, generic in the relation between a function and its traced program |
| C123 | exact derivatives of FlatLambdaCDM distances in redshift, h0 and Om0 by either mode, knots included; gradient within 1/500 of that of the integral; stacks of lenses in such a cosmology | AdCosmo_Props; the fixed-index cubic and the spline have the same derivative at the query (C07), then C122; slopes of C75's cells |
| C124 | composite lenses and simulated images carried along by shifts, turns and reflections of the whole scene | Whole_Props; state-by-state simulation of the plane loop; pixel formula of C66 under reversal and exchange of sums |
| C125 | average and mean square error of the Monte Carlo microlensing flux, its reported error, convergence of the grid flux | MicroStat_Props; average over the draws as iterated integrals, induction on the number of samples; cell-by-cell bound for the grid |
| C126 | arrival times along paths of images, focusing lenses; false for Multiplane, whose geometric part uses the squared physical deflection | Focus_Props; chain rule along a path and the mean value theorem |
| C127 | exact derivatives of NFW, TNFW, PseudoJaffe and Multipole in parameters, position and cosmology by either mode; whole scenes in a flat universe | AdHalo_Props; C95/C97 formulas with traced distances, then C122 and C123. In the model Multiplane goes through the reduced angle for every lens; C127_same_angle shows this changes no value |
| C128 | existence of images; the first image has magnification at least one and positive parity | First_Props; least value of the arrival time over the plane, from scratch (extreme value theorem in the plane, second derivative test, cusps at the singular centres) |
| C129 | exactly one image and bounded magnification below the critical strength, three images above it | Single_Props; monotone deflections, the largest eigenvalue of the cored SIE, intermediate value theorem |
| C130 | Jacobian of Multiplane, effective convergence and rotation | Twist_Props; chain rule over the planes, induction over the matrices |
| C131 | images lie within a known radius of their source; one image for a source far from every centre | Where_Props; bounds of each deflection, local monotonicity along segments that avoid the centres |
| C132 | exactly one image and bounded magnification for weak lenses on several planes | Gentle_Props; Lipschitz bounds carried through the planes, contraction of the image plane, mean value theorem |
| C133 | at most four images by an SIE without core; exactly four of a centred source | Four_Props; the rays turned into one equation in the slope, monotone on at most four pieces |
| C134 | Einstein rings and images of round lenses | Ring_Props; mean convergence strictly decreasing, intermediate values; for NFW the mean exceeds the edge value |
| C135 | Number of images of round lenses | Count_Props; the radial map rises to one maximum and falls, counted by intermediate values; for PseudoJaffe by a ratio argument |
| C136 | Number of images of a field of stars | Stars_Props; lens equation as a complex polynomial, roots counted by division |
| C137 | Light and mass of pixel maps | Flux_Props; refuted: outer half pixel is extrapolated; exact weights 9/8, 7/8, 1, ..., 1, 7/8, 9/8; holds for maps with an empty rim |
| C138 | Gradients of Jacobian, shear and magnification | AdJac_Props; refuted: jacobian_lens_equation(method="autograd") detaches, so it and shear have gradient zero; exact for jacobian_deflection_angle, effective convergence, magnification and for finitediff |
| C139 | Magnification as a ratio of areas | Area_Props; any lens with a total derivative, with parity; exact for sheets and shears |
| C140 | Light of a star; finite-source amplification | Star_Props; refuted for every limb-darkened star with theta_s < 1; holds for theta_s = 1 and for uniform stars |
| C141 | The Einstein cross of an SIE | Cross_Props; eigen-directions and parity everywhere, magnifications and delays of the four images |
| C142 | Round lens in a shear and a sheet | Split_Props; Point and SIS, exact image set, magnifications, parities, delays |
| C143 | SIE, sources on the axes | Cusp_Props; exact image count, cut and cusp distances, three-image lenses |
| C144 | Expressions given as strings (`_eval_expression`) | Eval_Props; refuted for lambdas, whose bodies the check does not see; proved for arithmetic and for everything outside lambdas |
| C145 | Concentric lenses, delays from image positions | Conc_Props; any list of lenses; order of arrival |
| C146 | Mass-sheet degeneracy of images and fluxes | Degen_Props; any lens and settings; Sersic, pixelated, uniform star, stack |
| C147 | Shape of a galaxy behind a sheet and a shear (reduced shear) | Gxy_Props; any Sersic galaxy aligned with the shear, any round one |
| C148 | Composition of ellipticity and reduced shear | Gxy2_Props; any Sersic galaxy, any constant shear and sheet |
| C149 | Choice of the array backend, all histories | Choice_Props; refuted for the agreement with caskade when that takes further names; the rest proved |
| C150 | Keys of random draws, all sequences of calls | Rng_Props; for a generator whose split never repeats a key |
| C151 | Overlapping fields agree; binning | Mosaic_Props; any scene, geometry and PSF in the modes that C66 proves right |
| C152 | Astrometric microlensing | Astro_Props; Point lens with s = 0, every star off the lens; complete image sets |
| C153 | A lens from two images | Invert_Props; SIS and Point with s = 0, any pair of images of finite magnification |
| C154 | Hubble constant from delays | Clock_Props; any thin lens (C154_unique, _sheet), SIS and Point with s = 0 in terms of what is seen |
| C155 | Light of a source behind an SIS | Glow_Props; SIS with s = 0, every source off the lens; complete image lists |
| C156 | Mean ellipticity of a ring of galaxies | Wheel_Props; constant shear and sheet as in C148; the ellipticities are those of the model galaxies, not measured from pixels |
| C157 | Weighing a round lens by its shear | Zeta_Props; softening 0; NFW and TNFW not instantiated because their formulas switch inside an annulus (see C52, C55) |
| C158 | Joining shears and sheets | Pile_Props; any thin lenses beside them |

Where a statement is false of the faithful model, a `..._refuted` theorem gives the
witness, the property stays as written ("partial" in the manifest), and the
part that does hold is proved under its own name.

## 4. Which code is modelled

| file in `src/caustics` | model | modelled | not modelled |
|---|---|---|---|
| `constants.py` | Const_Model | all | binary rounding of astropy's values |
| `utils.py` | Geo, Wcs, Quad, Interp1, Interp2, Bicubic, Reduce, Cluster, LM, Gauss, Tri, Eval _Model | coordinate helpers, meshgrid, WCS transforms, quadrature, interpolation in 1/2/3 dimensions and bicubic, chunked vmap-reduce, cluster means, Levenberg-Marquardt, gaussian, triangle search, safe_divide, safe_log, `_lm_step`, `vmap_n` (Backend_Model) | `_import_func_or_class` (Python introspection); parsing of the strings of `_eval_expression` and the rarer kinds of expression |
| `angle_mixin.py` | Angle_Model | all | |
| `backend_obj.py` | Backend_Model, Choice_Model, Rng_Model; pieces used by the other models (searchsorted, conv2d, fft) | both flavours of pad, flatten, avg_pool2d, upsample2d, fill_at_indices, add_at_indices and chunked vmap; the torch flavour of the other functions the models use; the choice of backend (caskade's own setter is taken to change its name and to do nothing when it raises); which key each random draw uses | device and dtype handling, one-line wrappers around an identically named library function, the random generators themselves |
| `cosmology/base.py`, `FlatLambdaCDM.py` | Cosmo, CosmoTable _Model | all | `to`, dtype handling |
| `lenses/base.py`, `func/base.py` | LensBase, Tri _Model | conversions, jacobians, shear, magnification, raytrace, forward_raytrace, time delay, thick lens quantities | `NotImplementedError` stubs, abstract methods, the deprecation warning of ThickLens.reduced_deflection_angle |
| `lenses/{mass_sheet,external_shear,sis,point,sie}.py` and `func/` | LensBasic_Model | all functions; classes pass their parameters on | |
| `lenses/epl.py`, `multipole.py`, `pseudo_jaffe.py`, `nfw.py`, `tnfw.py`, `enclosed_mass.py` and `func/` | Epl, Multipole, Jaffe, Nfw, Tnfw, EncMass, Halo _Model | all functions and methods | gradients of `enclosed_mass` other than the mathematical derivative |
| `lenses/{singleplane,batchedplane,multiplane}.py` | LensBase, Reduce, Multiplane _Model | all | `Multiplane.surface_density` (raises) |
| `lenses/pixelated_{potential,deflection,convergence}.py`, `func/pixelated_convergence.py` | PixMap, Dft, PixConv _Model | all | `to` |
| `light/*.py`, `light/func/*.py` | Light, PixMap _Model | all | |
| automatic differentiation of `lenses/func`, `light/func/sersic.py`, `sims/lens_source.py` | Ad, AdLens, AdEpl, AdPix, AdConv, AdSim, AdMicro, AdMulti, AdCosmo, AdHalo, AdJac, Rev _Model | forward and reverse mode, as traced, of Jacobian, shear and magnification, all analytic lenses, Sersic, pixelated convergence, interpolated lens, image and cube, the LensSource image, the Microlens flux, SinglePlane and Multiplane, and FlatLambdaCDM distances | the field of view of Microlens as a differentiated argument |
| `sims/lens_source.py`, `microlens.py`, `simulator.py` | Sim, Micro, Build _Model | pipeline, setters, both PSF modes, quadrature, upsampling; Microlens estimators; build_simulator | `to`, YAML parsing (a configuration is a tree), random numbers of Microlens (arbitrary points) |
| `func.py`, `__init__.py`, `tests.py` | | re-exports and a smoke test: nothing to model | |

## 5. Where the code and the properties disagree

Each item is a property as a user would state it that the faithful model refutes; the note says what is proved instead.

* **C08** (`C08_below_const_refuted`, `C08_below_linear_refuted`, `C08_below_extrapolate_refuted`): True above the last knot, false below the first one in all three modes (refuted theorems): index -1 wraps to the last knot and the const and linear modes test only the upper end.
* **C12** (`C12_deflection_refuted`, `C12_value_refuted`): False of the code: the default derivative estimates have the wrong sign and exchanged axes (refuted theorems, and the exact wrong deflection for every affine map). With derivative maps supplied, affine maps are reproduced.
* **C15** (`C15_distinct_refuted`): Distinctness is false of the code (refuted theorem: [0,5,10], first mean 0, k=3 gives 10 twice). Proved: k members of the input for every k; distinct and farthest for k=2.
* **C17** (`C17_refuted`): False of the code with the default settings (refuted theorem): the convergence exit returns the point before and the chi-squared after the last step. Proved: the values belong to a point within the stopping tolerance, and to the returned one when that tolerance is zero, if no gain ratio equals epsilon.
* **C25** (`C25_refuted`, `C25_depth_refuted`): Refuted: a source without an image in the field makes the search take the first element of an empty list (IndexError), and a depth limit reached before the triangles are smaller than epsilon^2 reads an unassigned variable (NameError). C25_inside_partial states when the call returns.
* **C31** (`C31_order_refuted`, `C31_order_silent_refuted`): False of the code: listing planes out of redshift order raises IndexError or silently returns a wrong position (refuted theorems). Proved for any two listings both sorted by redshift.
* **C32** (`C32_unsorted_refuted`): Proved for lists sorted by redshift; false when the insertion makes the listing unsorted (refuted theorem, same cause as C31).
* **C33** (`C33_one_plane_delay_refuted`): False of the code (refuted theorem). C33_actual_ratio gives the exact factor between the two delays.
* **C40** (`C40_point_stale_link_refuted`, `C40_point_second_switch_refuted`): ExternalShear: proved for every history and every caskade policy. Point and SIE never unlink by themselves: proved when caskade drops the links of a parameter that gets a plain value, false otherwise (refuted theorems).
* **C45** (`C45_softened_sis_gradient_refuted`, `C45_softened_sis_convergence_refuted`, `C45_softened_point_gradient_refuted`, `C45_softened_point_convergence_refuted`, `C45_refuted`): False of the code: with softening s>0 the SIS and Point deflection is not the gradient of the potential and the convergence is not half its divergence, at any point off the centre (refuted theorems). The unsoftened case is C43/C44.
* **C48** (`C48_chunk_refuted`): Refuted: with n_iter=4 and chunk_size=2 the deflection differs from the unchunked one (max instead of min in the slice, last remainder dropped). Equality is proved for chunk_size 1 and for every chunk size above n_iter/2; larger than n_iter raises TypeError.
* **C49** (`C49_constant_refuted`, `C49_softened_refuted`): The constant of the property is refuted for t=3/2 (it must grow with n_iter) and the softening breaks the consistency; the exact remainder of divergence, curl and potential gradient is proved for every n_iter, with the bound for t<=1 and a bound with factor n_iter for all t, exact consistency for q=1, scaling, potential formula and the SIS case.
* **C52** (`C52_softened_refuted`): Proved for the unsoftened lens off the 1e-6 window; a separate theorem shows that with softening s>0 the deflection is not the gradient.
* **C53** (`C53_scale_radius_refuted`, `C53_unbounded_refuted`): Refuted: at the scale radius the code returns 0/0, and within 1e-6 of it the clamped numerator over r^2-1 is unbounded. Finiteness at every other radius and continuity off the 1e-6 window are proved.
* **C55** (`C55_softened_refuted`): Proved for the unsoftened lens off the one percent window; the gradient also with softening; a separate theorem shows that with softening the convergence is not half the divergence.
* **C57** (`C57_divergence_refuted`, `C57_fall_off_refuted`): Refuted: the code deflects by 4GM/r^2, so for constant M it falls off as 1/R^2 and half its divergence is not the convergence. Proved: the exact divergence, the 1/R^2 law, and that the reported convergence integrates to the given enclosed mass.
* **C59** (`C59_refuted`, `C59_conv2d_refuted`): False of the code: the fft deflection map is displaced by half a pixel (plus whole pixels when 2n is not a fast transform length), refuted for every map size and pixel in both convolution modes. Proved instead: exact value as a sum over displaced point masses, antisymmetry about the displaced position.
* **C60** (`C60_refuted`): False of the code: conv2d returns the uncropped 2n x 2n array and interpolates it over the n-pixel field of view; refuted for every map size. Proved instead: the fft map is the crop of the conv2d map at a fixed offset.
* **C62** (`C62_refuted`, `C62_ring_refuted`): False of the code for theta_s > 1: mu = sqrt(1 - b^2) is not scaled by theta_s and is NaN for 1 < b <= theta_s. Zero outside and Ie at the centre hold for every theta_s; finiteness and bounds proved for theta_s <= 1.
* **C65** (`C65_refuted`): False of the code in fft mode when the PSF has different half widths (e.g. 3 x 1): refuted for every square field of at least 2 x 2. Proved for conv2d mode on any field, for fft mode on square fields with equal half widths, for 1 x 1 PSFs and with the PSF off, for every upsample factor and quadrature level.
* **C66** (`C66_refuted`, `C66_field_refuted`): False of the code in fft mode for PSFs of different half widths and for fields that are not square (axes exchanged): both refuted. Proved: conv2d mode is the plain centred convolution for every shape; fft mode is the same for square fields and equal half widths.
* **C67** (`C67_refuted`): False of the code in fft mode on fields that are not square (4 x 8 field with a 3 x 3 PSF gives 5 rows). Proved: exact condition for the shape to be right in fft mode; always right in conv2d mode or without PSF.
* **C70** (`C70_refuted`, `C70_list_refuted`): False of the code when two objects are written the same way, and for references inside a list. Proved for every configuration whose objects can be told apart.
* **C76** (`C76_high_redshift_refuted`): False of the code: the table stops at 10 and the cubic extrapolation takes over (refuted at z=1100, Om0=0.3, for every h0). Inside the table the error is at most 1/16.
* **C79** (`C79_refuted`, `C79_time_refuted`): False of the code: the constructors accept an extra channel axis which interp2d / interp3d refuse. Proved for plain images.
* **C83** (`C83_delay_refuted`): Ray tracing proved for every listing by increasing redshift. False of the code for time delays: Multiplane.time_delay divides by the distance between consecutive planes, so two lenses at one redshift give NaN (proved for all lenses), while as a SinglePlane they have a delay.
* **C86** (`C86_flatten_scalar_refuted`, `C86_avg_pool2d_refuted`, `C86_upsample_refuted`, `C86_add_at_indices_refuted`, `C86_in_place_refuted`, `C86_chunk_refuted`): Refuted by the faithful model in corner cases: jax flatten of a scalar raises ZeroDivisionError, jax pad ignores surplus pairs, jax avg_pool2d ignores padding, jax upsample2d does not divide by scale^2 (and interpolates), chunk splits differently when the count does not divide, add_at_indices differs for repeated positions, torch updates its argument in place. Proved to agree in every other case of the operations modelled.
* **C89** (`C89_circular_refuted`, `C89_tile_refuted`): False of the code for circular padding (only n-1 rows and columns are appended, so a gap of zeros remains) and for tile padding when 2n is not a fast transform length (the transform is longer than the tiled map). Proved for tile padding when 2n is a fast length; values at pixel centres proved for every padding.
* **C90** (`C90_refuted`): False of the code when the padding is not zero: the kernels are windowed according to the mode given at construction only. Proved for zero padding; changing back restores the lens for every padding.
* **C92** (`C92_refuted`): False exactly: at n = 1/2 more than half of the light is inside Re, since k is an approximation. Proved for integer and half-integer n in the valid range: the fraction is 1/2 up to 2e-4/(2n)^3 (default) and 0.011, or 6e-4 from n = 3/2 on (use_lenstronomy_k). Other n are missing.
* **C96** (`C96_refuted`): False of the code: C96_refuted. For SIS, Point, NFW, TNFW and PseudoJaffe the automatic Jacobian at the centre is NaN for every softening although the deflection is differentiable there (C96_*_centre); TNFW deflects the ray through its own centre (C96_tnfw_deflects_at_centre); the PseudoJaffe class does not pass its softening on. What holds: SIE deflection and EPL convergence with s > 0 are differentiated exactly at every point.
* **C104** (`C104_sie_tiny_core_refuted`, `C104_pseudo_jaffe_softened_refuted`): False of the code in two places. potential_sie replaces a core radius below 1e-6 by 1e-6 (C104_sie_tiny_core_refuted: for every such core and every l > 1 the potential does depend on the unit). The functional pseudo-Jaffe convergence and potential add the softening, an angle, to the square of a radius (C104_pseudo_jaffe_softened_refuted, for every softening and every l <> 1). Everything else is proved.
* **C105** (`C105_nfw_refuted`, `C105_tnfw_refuted`): False of the code for the two halos. Every NFW lens has a convergence that rises with the distance just inside the scale radius (C105_nfw_refuted; the numerator is frozen within one part in a million of it). Every TNFW lens jumps up where the series expansion of its profile ends, at 1.01 scale radii (C105_tnfw_refuted). Outside these windows both fall, and both are positive everywhere they are finite.
* **C112** (`C112_refuted`): False of the code: no code path compares z_l with z_s. A halo behind the source repels, with negative convergence; a multiplane lens adds such planes. At z_l = z_s the reduced deflections of NFW and TNFW vanish in the exact model because they are multiplied by D_ls = 0; PseudoJaffe divides by the critical density there, which is itself a division by zero, and nothing is claimed for it.
* **C117** (`C117_refuted`): False of the code. Only the images of the corners are looked at, so an image whose surroundings are smaller than the grid is missed: for a Point lens in the middle of the field with 2 Rein^2 <= b h (h the spacing, b the distance of the source) the search never reports anything within two Einstein radii of the lens, at any depth, while one of its two images is there (C117_missed, C117_present); the witness of C117_refuted has the default settings. What holds (C117_found): if over the field and a margin the map to the source plane is an invertible matrix times a map that differs from the identity by at most 1/30 of every separation, every image half a cell inside the field is found to 2 b/a epsilon and nothing else is reported, as long as the last triangles are not smaller than the tolerance 1e-6 with which duplicates are removed; C117_outside is this for a Point lens outside the field.
* **C126** (`C126_multiplane_refuted`): C126_multiplane_refuted: a Multiplane holding one mass sheet of the critical density sends all rays to one point but reports different arrival times (multiplane.py:108-116 adds tau times half the squared physical deflection, not the squared difference of the angular positions on consecutive planes). Proved for thin lenses and SinglePlane: C126_path, C126_thin, C126_single_plane.
* **C137** (`C137_negative_refuted`, `C137_negative_mass_refuted`, `C137_total_refuted`): refuted: in the outer half pixel of the field the linear interpolation extrapolates, so a map without negative pixels goes negative there (C137_negative_refuted, also for the convergence), and the total counts the outermost pixels 9/8 and their neighbours 7/8 times on each axis (C137_total_refuted; C137_total_partial and C137_weights give the exact total of every map). The statement is proved for maps whose two outermost rows and columns are empty (C137_dark_rim_partial) and, for the sign, between the outermost pixel centres (C137_inside_partial).
* **C138** (`C138_refuted`): refuted: jacobian_lens_equation with its default method "autograd" subtracts backend.detach(J), so neither it nor shear (which calls it) carries a gradient, for any lens and any parameter (C138_no_gradient); for ExternalShear the shear is gamma_1, whose derivative is 1, and the reported one is 0 (C138_refuted). The values are right (C138_values). The statement is proved for jacobian_deflection_angle, effective_convergence_div and _curl, magnification off the critical curve, and for jacobian_lens_equation and shear with method "finitediff", for every smooth deflection formula, and in reverse mode for the Jacobian of the deflection and the magnification (C138_reverse_partial); C138_lenses shows the hypotheses for MassSheet, ExternalShear, SIS, Point and SIE.
* **C140** (`C140_limb_refuted`): refuted: the limb darkening uses sqrt(1 - b^2) with the distance b in units of angle, not b/theta_s, so every limb-darkened star of radius below one is too bright (C140_limb_refuted; above one it is NaN, C62). The total is proved for theta_s = 1 (C140_limb_partial) and, for theta_s <= 1, without limb darkening (C140_uniform_partial), together with the amplification by mass sheet, SIS and Point in Microlens (C140_microlens_partial, C140_sheet_partial, C140_sis_partial, C140_point_partial). Missing: theta_s > 1, where the code returns NaN, and amplification of limb-darkened stars.
* **C144** (`C144_refuted`, `C144_pi_refuted`): refuted: code.co_names lists the names of the outermost code object only (utils.py:57), so an attribute inside a lambda is evaluated and hands out a class object (C144_refuted, '(lambda: (1).__class__)()'), and pi, given as a local, is not found there (C144_pi_refuted, '(lambda: pi)()'). Proved: arithmetic evaluates to its value and raises only ZeroDivisionError (C144_value_partial, C144_raises_partial), forbidden names outside lambdas are refused (C144_names_partial), without lambdas only numbers and tuples of them come out (C144_data_partial). The function is private and not called by the library.
* **C149** (`C149_refuted`): refuted: the setter assigns caskade's backend before it checks the name (backend_obj.py:27-28), so a name that caskade takes and caustics does not (such as numpy) raises ValueError and leaves caskade with that name and caustics with the old one (C149_refuted). Proved: the object of caustics is consistent after every history (C149_consistent), which assignments succeed (C149_succeeds), what they do (C149_success), that failing ones leave it as it was (C149_failure), and that both agree when caskade takes only torch and jax (C149_agree_partial).

Further disagreements noticed while modelling (not properties of their own): the EPL softening enters only the convergence; the
class PseudoJaffe ignores its softening `s`; PixelatedConvergence in conv2d mode with `n = 1` cannot pad by reflection; the
multiplane time delay is NaN when two planes have the same redshift; `FlatLambdaCDM` distances extrapolate with a cubic beyond
the table; the TNFW series for F has a small jump at the edges of its one percent window; a softened TNFW deflects its own centre along +x
(the angle of the zero vector is 0), which is why C94 leaves the centre out; the SIE functions
replace q = 1 by q - 1e-6, so a source behind the centre of a round SIE has four images and no ring (C133_round); PixelatedConvergence
computes its deflection from the plain pixels but its convergence by extrapolation in the outer half pixel, so the two disagree on the total mass of a map that is not empty near its border (C137).

### How the seeded bugs were judged

Every line of `seeded/LOG.jsonl` is one edit of a model definition in a scratch copy, followed by a rebuild of the files its claim depends on.
A theorem is listed under `failed` when its committed proof no longer goes through for the edited model, directly or because a lemma it uses broke;
no attempt was made to find another proof, so `failed` says that the bug is noticed, not that the statement was disproved.
`unchecked_theorems` gives theorems that could not be judged, because a file they depend on timed out or stopped compiling outside a proof; they do not count as failed,
and a line with nothing else is marked inconclusive (earlier versions of the log listed these theorems under `failed` with a question mark).
`failed_after_tightening` gives the theorems that notice a bug which first survived, and `tightened` names the theorems added or strengthened for it.

## 6. Assumptions theorem by theorem

What `Print Assumptions` lists for each theorem of the `*_Props.v` files. Letters: **F** = `ClassicalDedekindReals.sig_forall_dec`,
**N** = `ClassicalDedekindReals.sig_not_dec`, **E** = `FunctionalExtensionality.functional_extensionality_dep`,
**C** = `Classical_Prop.classic`. All four belong to the Coq standard library. "none" = closed under the global context.

**C, E, F, N** (494 statements): `C04_plane`, `C04_world`, `C05_pixel_world`, `C06_hyps`, `C06_polynomial`, `C07_continuously_differentiable`, `C100_deflection`, `C100_not_exact`, `C100_potential`, `C100_round`, `C101_isothermal`, `C101_limit`, `C102_hyps`, `C102_pseudo_jaffe_potential`, `C102_tnfw_enclosed`, `C102_tnfw_far`, `C102_tnfw_potential`, `C103_epl`, `C103_hyps`, `C103_point_pair`, `C103_sie_two_images`, `C104_epl`, `C104_hyps`, `C104_magnification`, `C104_multipole`, `C104_pixelated_convergence`, `C104_pixelated_deflection`, `C104_point`, `C104_pseudo_jaffe_partial`, `C104_sersic`, `C104_sie_partial`, `C104_sie_tiny_core_refuted`, `C104_tnfw`, `C105_epl`, `C105_nfw_partial`, `C105_nfw_positive`, `C105_nfw_refuted`, `C105_tnfw_partial`, `C105_tnfw_positive`, `C105_tnfw_refuted`, `C106_epl`, `C106_epl_symmetric`, `C106_multipole`, `C106_multipole_fold`, `C106_multipole_symmetric`, `C106_nfw`, `C106_point`, `C106_pseudo_jaffe`, `C106_sersic`, `C106_sersic_symmetric`, `C106_sie`, `C106_sie_symmetric`, `C106_tnfw`, `C107_exact`, `C107_hyps`, `C108_flat_distance`, `C108_nfw`, `C108_pseudo_jaffe`, `C108_tnfw`, `C110_near`, `C110_search`, `C111_cube`, `C111_cube_grad`, `C111_deflection`, `C111_deflection_grad`, `C111_image`, `C111_image_grad`, `C111_pixel_centre`, `C112_at_source_nfw`, `C112_at_source_tnfw`, `C112_behind_nfw`, `C112_behind_pseudo_jaffe`, `C112_behind_tnfw`, `C112_negative_tnfw`, `C113_tnfw_nfw_convergence`, `C113_tnfw_nfw_deflection`, `C113_tnfw_nfw_potential`, `C113_tnfw_nfw_softened`, `C114_any_scene`, `C114_any_scene_backward`, `C114_hyps`, `C114_sample_at_centre`, `C114_sample_at_centre_fft`, `C114_sie_sersic`, `C115_epl`, `C115_nfw`, `C115_nfw_fades`, `C115_nfw_hyps`, `C115_point`, `C115_sie`, `C115_sie_potential`, `C115_sie_round`, `C115_tnfw`, `C115_tnfw_fades`, `C116_convergence`, `C116_convergence_grad`, `C116_deflection`, `C116_deflection_grad`, `C116_hyps`, `C116_pixel_response`, `C116_pixel_response_potential`, `C116_potential`, `C116_potential_grad`, `C116_scale_response`, `C117_found`, `C117_missed`, `C117_outside`, `C117_refuted`, `C118_any_curve`, `C118_any_curve_backward`, `C118_hyps`, `C118_sie_sersic`, `C119_flat`, `C11_true_derivatives`, `C120_convergence`, `C120_converges`, `C120_deflection`, `C120_hyps`, `C120_jacobian`, `C120_sharp`, `C120_source`, `C120_time`, `C121_flat`, `C121_hyps`, `C121_nfw`, `C121_pseudo_jaffe`, `C121_tnfw`, `C122_backward`, `C122_forward`, `C122_hyps`, `C122_jacobian`, `C122_kinds`, `C122_lens`, `C122_lenses`, `C122_meaning`, `C122_one_plane`, `C123_critical_density`, `C123_derived`, `C123_distance`, `C123_gradient`, `C123_hyps`, `C123_interp1d`, `C123_lenses`, `C123_meaning`, `C124_derivatives`, `C124_derivatives_hyps`, `C124_hyps`, `C124_magnification`, `C125_hyps`, `C126_hyps`, `C126_multiplane_refuted`, `C126_path`, `C126_single_plane`, `C126_thin`, `C127_halo`, `C127_halo_hyps`, `C127_hyps`, `C127_physical`, `C127_same_angle`, `C127_scene`, `C128_an_image`, `C128_critical_sheet`, `C128_first_is_bright`, `C129_brightness`, `C129_one_image`, `C129_several`, `C130_aligned`, `C130_hyps`, `C130_matrix`, `C130_round`, `C130_tide`, `C130_two_planes`, `C131_far`, `C131_far_one`, `C131_hyps`, `C131_where`, `C132_brightness`, `C132_flat`, `C132_gentle`, `C132_hyps`, `C133_at_most_four`, `C133_centre`, `C133_hyps`, `C133_round`, `C134_epl`, `C134_hyps`, `C134_nfw_ring`, `C134_point`, `C134_pseudo_jaffe_strong`, `C134_pseudo_jaffe_weak`, `C134_sis`, `C135_epl`, `C135_point`, `C135_point_sharp`, `C135_point_wide`, `C135_pseudo_jaffe_strong`, `C135_pseudo_jaffe_weak`, `C135_sis`, `C135_sis_sharp`, `C135_sis_wide`, `C136_one_star`, `C136_sheared`, `C136_two_stars`, `C136_unsheared`, `C137_dark_rim_mass_partial`, `C137_dark_rim_partial`, `C137_hyps`, `C137_inside_mass_partial`, `C137_negative_mass_refuted`, `C137_total_mass_partial`, `C137_total_partial`, `C137_total_refuted`, `C138_deflection_jacobian_partial`, `C138_effective_convergence_partial`, `C138_finitediff_partial`, `C138_hyps`, `C138_lenses`, `C138_lenses_reverse`, `C138_magnification_partial`, `C138_no_gradient`, `C138_refuted`, `C138_reverse_partial`, `C138_values`, `C139_affine`, `C139_area`, `C139_hyps`, `C139_lenses`, `C139_parity`, `C140_limb_partial`, `C140_limb_refuted`, `C140_microlens_partial`, `C140_point_partial`, `C140_sheet_partial`, `C140_sis_partial`, `C140_uniform_partial`, `C141_cross`, `C141_delays`, `C141_first`, `C141_sense`, `C141_stretch`, `C142_hyps`, `C142_point`, `C142_point_delays`, `C142_sis`, `C142_sis_delays`, `C143_hyps`, `C143_major`, `C143_minor`, `C143_not_three`, `C143_three`, `C144_data_partial`, `C144_hyps`, `C144_names_partial`, `C144_pi_refuted`, `C144_raises_partial`, `C144_refuted`, `C144_value_partial`, `C145_delays`, `C145_farther_first`, `C145_hyps`, `C145_same`, `C146_sersic`, `C147_brightness`, `C147_image`, `C147_round`, `C148_brightness`, `C148_image`, `C148_one_image`, `C152_centroid`, `C152_closer`, `C152_distance`, `C152_ellipse`, `C152_hyps`, `C152_images`, `C152_largest`, `C153_apart`, `C153_both_fit`, `C153_hyps`, `C153_point`, `C153_point_unique`, `C153_sis`, `C153_sis_unique`, `C153_unequal`, `C154_hyps`, `C154_point`, `C154_seen`, `C154_sheet`, `C154_sis`, `C154_unique`, `C155_closer`, `C155_distance`, `C155_hyps`, `C155_images`, `C155_light`, `C156_ring`, `C156_shape`, `C157_point`, `C157_pseudo_jaffe`, `C157_sis`, `C157_weighs`, `C158_anywhere`, `C158_centre`, `C158_unique`, `C16_affine`, `C16_hyps`, `C16_normal_equations`, `C17_hyps`, `C17_refuted`, `C27_default_methods_consistent`, `C27_hyps`, `C27_jacobian_shear_magnification`, `C29_hyps`, `C34_hyps`, `C34_stationary_at_images`, `C36_exact_at_knots`, `C36_hubble_scaling`, `C36_hyps`, `C36_transverse`, `C36_zero_redshift`, `C37_e_roundtrip`, `C37_q_roundtrip`, `C38_c_roundtrip`, `C38_q_roundtrip`, `C39_any_history`, `C39_hyps`, `C39_switch`, `C42_external_shear`, `C42_mass_sheet`, `C43_sis`, `C44_point`, `C45_refuted`, `C45_softened_point_convergence_refuted`, `C45_softened_point_gradient_refuted`, `C45_softened_sis_convergence_refuted`, `C45_softened_sis_gradient_refuted`, `C46_sie`, `C47_half_turn`, `C47_homogeneous`, `C47_potential_euler`, `C48_chunk_refuted`, `C48_oversized_chunk`, `C48_whole_series_partial`, `C49_circular`, `C49_constant_refuted`, `C49_divergence_all_slopes_partial`, `C49_divergence_partial`, `C49_isothermal`, `C49_remainder`, `C49_scaling`, `C49_softened_refuted`, `C50_consistent`, `C51_consistent`, `C51_enclosed_mass`, `C52_consistent`, `C52_hyps`, `C52_softened_refuted`, `C53_continuous_partial`, `C53_finite_partial`, `C53_scale_radius_refuted`, `C53_unbounded_refuted`, `C54_class`, `C54_mean_density`, `C54_virial_mass`, `C55_consistent`, `C55_enclosed_mass`, `C55_gradient_softened`, `C55_softened_refuted`, `C56_normalisation`, `C56_total_mass`, `C57_divergence_partial`, `C57_divergence_refuted`, `C57_hyps`, `C58_defined`, `C58_hyps`, `C59_antisymmetric_partial`, `C59_conv2d_refuted`, `C59_displaced_partial`, `C59_hyps`, `C59_refuted`, `C60_hyps`, `C60_refuted`, `C60_same_numbers_partial`, `C61_decreasing`, `C61_effective_radius`, `C61_level_sets`, `C61_positive`, `C69_affine`, `C71_hyps`, `C73_safe_log`, `C74_isothermal_convergence`, `C75_close_to_exact`, `C75_hyps`, `C75_increasing`, `C75_tight`, `C76_accurate_partial`, `C76_high_redshift_refuted`, `C77_pixelated_potential_consistent`, `C78_projected_density`, `C81_hubble_distance`, `C82_nfw`, `C82_pseudo_jaffe`, `C82_tnfw`, `C85_einstein_ring`, `C85_point_magnifications`, `C85_sis_magnifications`, `C88_nfw`, `C88_tnfw`, `C88_tnfw_limit`, `C88_tnfw_scales`, `C88_tnfw_total`, `C88_tnfw_window`, `C89_circular_refuted`, `C89_hyps`, `C89_tile_partial`, `C89_tile_refuted`, `C89_values_partial`, `C90_back_partial`, `C90_hyps`, `C90_refuted`, `C90_zero_partial`, `C91_between`, `C91_constructor`, `C91_hyps`, `C91_outside`, `C91_pixel_centres`, `C92_growth_partial`, `C92_half_light_partial`, `C92_refuted`, `C93_hyps`, `C93_second_order`, `C94_epl`, `C94_jaffe`, `C94_multipole`, `C94_nfw`, `C94_point`, `C94_sersic`, `C94_sie`, `C94_tnfw`, `C95_epl`, `C95_epl_convergence`, `C95_external_shear`, `C95_finite_is_exact`, `C95_hyps_epl`, `C95_hyps_nfw`, `C95_jacobian`, `C95_mass_sheet`, `C95_multipole`, `C95_nfw`, `C95_point`, `C95_pseudo_jaffe`, `C95_sersic`, `C95_sie`, `C95_sis`, `C95_tnfw`, `C96_backpropagation_centre`, `C96_epl_centre`, `C96_epl_convergence_partial`, `C96_hyps`, `C96_nfw_centre`, `C96_point_centre`, `C96_pseudo_jaffe_centre`, `C96_refuted`, `C96_sie_partial`, `C96_sis_centre`, `C96_tnfw_centre`, `C96_tnfw_deflects_at_centre`, `C97_deflection_of_potential`, `C97_epl`, `C97_epl_convergence`, `C97_external_shear`, `C97_hyps`, `C97_mass_sheet`, `C97_multipole`, `C97_nfw`, `C97_point`, `C97_pseudo_jaffe`, `C97_reverse_is_forward`, `C97_sersic`, `C97_sie`, `C97_sis`, `C97_tnfw`, `C98_epl`, `C98_sie`, `C98_sis`, `C99_hyps`, `C99_minimum`, `C99_nfw`, `C99_point`, `C99_pseudo_jaffe`, `C99_sie_isothermal`, `C99_sis`, `C99_sis_isothermal`, `C99_tangential`, `C99_tnfw`.

**E, F** (151 statements): `C02_hyps`, `C03_default_square`, `C03_pixel_centres`, `C03_spacing_and_symmetry`, `C05_hyps`, `C05_pixel_plane`, `C05_plane_pixel`, `C05_reference`, `C05_singular`, `C07_hyps`, `C07_knots`, `C07_straight_line`, `C08_above_const_partial`, `C08_above_extrapolate_partial`, `C08_above_linear_partial`, `C08_below_const_refuted`, `C08_below_extrapolate_refuted`, `C08_below_linear_refuted`, `C09_affine`, `C09_clamp`, `C09_errors`, `C09_hyps`, `C09_nearest`, `C09_no_overshoot`, `C09_pixel_centres`, `C09_zeros_outside`, `C100_hyps`, `C101_hyps`, `C104_raytrace`, `C108_flat_density`, `C108_hyps`, `C109_hyps`, `C10_affine`, `C10_errors`, `C10_hyps`, `C10_nearest`, `C10_no_overshoot`, `C10_voxel_centres`, `C10_zeros_outside`, `C111_hyps`, `C112_hyps`, `C117_hyps`, `C117_outside_hyps`, `C11_errors`, `C11_hyps`, `C11_supplied_data`, `C121_reduced`, `C121_time_delay_distance`, `C124_mirrored`, `C124_single_plane`, `C12_actual_default_deflection_partial`, `C12_actual_kernels_partial`, `C12_deflection_refuted`, `C12_hyps`, `C12_supplied_affine_partial`, `C12_value_refuted`, `C136_hyps`, `C137_inside_partial`, `C137_negative_refuted`, `C137_weights`, `C13_hyps`, `C13_sum`, `C146_hyps`, `C146_pixelated`, `C146_pixelated_time`, `C147_hyps`, `C14_batchedplane`, `C151_hyps`, `C158_hyps`, `C15_distinct_refuted`, `C15_hyps`, `C18_hyps`, `C19_contains`, `C19_degenerate`, `C19_hyps`, `C20_area`, `C20_union`, `C21_area`, `C21_hyps`, `C21_ring`, `C22_triangles`, `C24_cover`, `C24_hyps`, `C24_invariant`, `C26_hyps`, `C26_linear`, `C26_physical_undoes_reduced`, `C26_ratio`, `C26_reduced_undoes_physical`, `C29_any_order`, `C29_concatenation`, `C29_sums`, `C30_hyps`, `C31_hyps`, `C32_hyps`, `C33_hyps`, `C35_angular_compose`, `C35_angular_is_comoving_over_1pz`, `C35_comoving_chain`, `C35_comoving_self`, `C35_hyps`, `C36_density_increasing`, `C36_density_today`, `C37_hyps`, `C41_hyps`, `C43_hyps`, `C46_hyps`, `C47_hyps`, `C49_hyps`, `C50_hyps`, `C51_hyps`, `C54_hyps`, `C56_hyps`, `C61_k_positive`, `C63_hyps`, `C63_outside`, `C63_pixel_centres`, `C63_time_centres`, `C63_time_outside`, `C64_flatten`, `C64_hyps`, `C64_members`, `C64_order`, `C64_sum`, `C66_hyps`, `C69_hyps`, `C72_hyps`, `C72_outside`, `C72_pixel_centres`, `C73_safe_divide`, `C74_hyps`, `C77_hyps`, `C78_hyps`, `C79_partial`, `C79_refuted`, `C79_time_refuted`, `C80_refused`, `C80_setters`, `C81_hyps`, `C82_hyps`, `C83_hyps`, `C85_hyps`, `C86_add_at_indices_refuted`, `C86_avg_pool2d`, `C86_avg_pool2d_refuted`, `C86_avg_pool2d_windows`, `C86_in_place_refuted`, `C86_upsample_refuted`, `C86_upsample_total`, `C92_hyps`, `C98_hyps`.

**E, F, N** (222 statements): `C01_axis`, `C01_centre`, `C01_derotate_inverse`, `C01_derotate_length`, `C01_derotate_undoes`, `C01_no_angle`, `C01_orientation`, `C01_rigid`, `C02_identity_below_one`, `C02_same_ellipse`, `C02_to_elliptical`, `C04_hyps`, `C06_constant`, `C102_pseudo_jaffe_enclosed`, `C102_pseudo_jaffe_far`, `C103_sis`, `C103_sis_pair`, `C103_unit`, `C104_external_shear`, `C104_mass_sheet`, `C104_pseudo_jaffe_softened_refuted`, `C104_sis`, `C105_hyps`, `C105_pseudo_jaffe`, `C105_sie`, `C105_sis`, `C106_enclosed_mass`, `C106_external_shear`, `C106_hyps`, `C106_mass_sheet`, `C106_sis`, `C106_star_source`, `C107_converges`, `C107_slope`, `C108_delays`, `C108_distances`, `C108_one_plane`, `C108_point`, `C108_rays`, `C109_bounds`, `C109_factor`, `C109_flux`, `C109_single`, `C109_sum`, `C110_hyps`, `C110_image_kept`, `C110_never_worse`, `C112_behind_multiplane`, `C112_refuted`, `C113_hyps`, `C113_pseudo_jaffe_sis`, `C115_hyps`, `C115_sis`, `C117_present`, `C119_hyps`, `C119_pairs`, `C119_second_order`, `C119_sheets`, `C121_critical_density`, `C121_einstein_radius`, `C121_velocity_dispersion`, `C124_carried`, `C124_image_flip_x`, `C124_image_flip_y`, `C124_image_shift`, `C124_image_swap`, `C124_multiplane_moved`, `C124_multiplane_turned`, `C124_thin`, `C125_continuous`, `C125_error_bar`, `C125_grid_converges`, `C125_grid_slope`, `C125_unbiased`, `C125_variance`, `C128_hyps`, `C129_hyps`, `C132_one_image`, `C132_together`, `C134_point_ring`, `C134_sis_ring`, `C135_hyps`, `C140_hyps`, `C140_shown_partial`, `C141_hyps`, `C146_flux`, `C146_image`, `C146_star`, `C147_axis_ratio`, `C147_reduced_shear`, `C148_area`, `C148_ellipse`, `C148_hyps`, `C150_axes`, `C150_fresh`, `C150_grid`, `C150_hyps`, `C150_key`, `C150_reproducible`, `C150_torch`, `C151_binned`, `C151_overlap`, `C156_hyps`, `C156_limit`, `C157_hyps`, `C16_damping`, `C16_mismatch`, `C16_monotone`, `C16_step`, `C17_consistent_partial`, `C17_nearby_partial`, `C18_blocks`, `C18_positive`, `C18_sum_one`, `C18_symmetric`, `C22_points`, `C23_images`, `C24_exact`, `C24_returns`, `C25_depth_refuted`, `C25_inside_partial`, `C25_outside_crash`, `C25_refuted`, `C27_shear`, `C28_finitediff_exact_on_affine`, `C28_methods`, `C29_consistent`, `C30_multiplane_equation`, `C30_one_plane`, `C31_order_refuted`, `C31_order_silent_refuted`, `C31_sorted_listings_partial`, `C32_massless_plane`, `C32_unsorted_refuted`, `C33_actual_ratio`, `C33_one_plane_delay_refuted`, `C34_delay_between_images`, `C34_flags`, `C35_critical_surface_density`, `C35_positive`, `C35_time_delay_distance`, `C37_q_range`, `C38_q_range`, `C40_shear_any_history`, `C40_shear_switch`, `C41_einstein_mass`, `C41_mass_to_rein_to_mass`, `C41_rein_to_mass_to_rein`, `C42_external_shear_angular`, `C42_mass_sheet_raytrace`, `C43_sis_deflection_length`, `C44_hyps`, `C44_point_infinite_only_at_centre`, `C44_point_ring`, `C47_half_contour`, `C47_isodensity_ellipses`, `C47_velocity_dispersion`, `C51_deflection_of_enclosed_mass`, `C55_hyps`, `C57_convergence_mass_partial`, `C57_fall_off_partial`, `C57_fall_off_refuted`, `C58_deflection_linear`, `C58_deflection_scale`, `C58_potential_linear`, `C58_potential_scale`, `C58_zero_map`, `C61_hyps`, `C62_centre`, `C62_disc_partial`, `C62_hyps`, `C62_outside`, `C62_refuted`, `C62_ring_refuted`, `C65_constant_partial`, `C65_hyps`, `C65_no_psf`, `C65_refuted`, `C66_conv2d`, `C66_fft_partial`, `C66_field_refuted`, `C66_no_psf`, `C66_refuted`, `C67_fft_shape`, `C67_refuted`, `C67_shape_partial`, `C68_additive`, `C68_both_off`, `C68_chunk`, `C68_linear`, `C68_no_deflection`, `C68_psf_scale`, `C69_bounds`, `C69_uniform`, `C69_unknown`, `C71_effective_convergence`, `C71_effective_deflection`, `C78_central_value`, `C81_angles`, `C81_critical_surface_density`, `C81_light_travel_time`, `C82_unit_convergence`, `C83_all_raytrace`, `C83_delay_nan`, `C83_delay_refuted`, `C83_group_raytrace`, `C84_convergence`, `C84_hyps`, `C84_magnification`, `C84_raytrace`, `C84_same_images`, `C84_time_delay`, `C85_point_images`, `C85_sis_images`, `C88_hyps`, `C94_enclosed`, `C94_hyps`, `C94_mass_sheet`, `C94_shear`, `C94_sis`, `C94_star`, `C95_hyps`.

**F** (13 statements): `C146_stack`, `C14_hyps`, `C15_members_partial`, `C15_two_partial`, `C28_hyps`, `C64_empty`, `C68_hyps`, `C86_add_at_indices`, `C86_hyps`, `C86_in_place`, `C86_pad`, `C86_pad_image`, `C86_pad_too_long`.

**none** (41 statements): `C03_hyps`, `C13_chunks`, `C13_reduce`, `C149_agree_partial`, `C149_consistent`, `C149_failure`, `C149_hyps`, `C149_refuted`, `C149_succeeds`, `C149_success`, `C40_hyps`, `C40_point_any_history_partial`, `C40_point_second_switch_refuted`, `C40_point_stale_link_refuted`, `C40_point_switch_partial`, `C40_sie_any_history_partial`, `C40_sie_switch_partial`, `C48_hyps`, `C50_orders`, `C57_potential_refused_partial`, `C59_shift_partial`, `C60_offset_partial`, `C67_hyps`, `C70_hyps`, `C70_list_refuted`, `C70_refuted`, `C70_resolved_partial`, `C72_refused`, `C72_shape`, `C79_hyps`, `C80_hyps`, `C86_chunk`, `C86_chunk_refuted`, `C86_flatten`, `C86_flatten_all`, `C86_flatten_scalar_refuted`, `C87_depth`, `C87_hyps`, `C87_shallow`, `C87_vmap_n`, `C90_modes_partial`.
