{"id": "C01", "title": "Coordinate frames: translate_rotate is a rigid motion and derotate undoes it", "statement": "translate_rotate(x,y,x0,y0,phi) preserves distances between any two points, sends (x0,y0) to the origin, and derotate with the same phi turns a vector expressed in the rotated frame back into the original frame: derotate(translate_rotate(x,y,x0,y0,phi),phi) = (x-x0,y-y0), derotate preserves lengths, derotate by -phi undoes derotate by phi, and without phi no rotation is done at all.", "quantifier": "all points, all centres and all rotation angles (including no angle)", "why_tests_cant": "A test samples some angles and points; the frame convention must hold for every real angle and every point, and a sign slip can hide at symmetric sample angles.", "anchors": ["src/caustics/utils.py: translate_rotate, derotate"]}
{"id": "C02", "title": "flip_axis_ratio describes the same ellipse", "statement": "For every axis ratio q != 0 and angle phi, flip_axis_ratio(q,phi) returns an axis ratio in (0,1] and an angle which describe the same family of ellipses: the elliptical radius built from the returned pair is a constant positive multiple of the one built from (|q|,phi).", "quantifier": "all non-zero q, all phi, all points of the plane", "why_tests_cant": "The equality is of whole level-set families, for every q on both sides of 1.", "anchors": ["src/caustics/utils.py: flip_axis_ratio, translate_rotate"]}
{"id": "C03", "title": "meshgrid produces exact pixel centres", "statement": "meshgrid(pixelscale,nx,ny) returns two ny-by-nx arrays; entry [i][j] of X is (j-(nx-1)/2)*pixelscale and of Y is (i-(ny-1)/2)*pixelscale, so neighbouring pixels are exactly one pixelscale apart, X varies along columns only and Y along rows only, and the grid is symmetric about the origin.", "quantifier": "all pixel scales and all grid shapes nx, ny >= 1", "why_tests_cant": "Tests fix particular shapes (usually square); nx and ny are unbounded and a transposed axis is invisible on square grids.", "anchors": ["src/caustics/utils.py: meshgrid"]}
{"id": "C04", "title": "Gnomonic projection and its inverse are mutually inverse", "statement": "world_to_plane_gnomonic(plane_to_world_gnomonic(px,py,crval),crval) = (px,py) for every point of the tangent plane and every reference position away from the poles; in the other direction a sky position in the visible hemisphere is recovered up to whole turns of right ascension.", "quantifier": "all tangent plane points, all reference positions (ra0, dec0) with |dec0|<90 deg, all sky positions in the open hemisphere around it", "why_tests_cant": "Needs every point, arbitrarily far from the tangent point and arbitrarily close to rho=0 where a special case is coded; tests sample a tiny patch.", "anchors": ["src/caustics/utils.py: plane_to_world_gnomonic, world_to_plane_gnomonic"]}
{"id": "C05", "title": "Linear WCS: pixel to plane and world round trips are the identity", "statement": "With an invertible CD matrix and no SIP terms (or all zero SIP coefficients), plane_to_pixel(pixel_to_plane(i,j)) = (i,j) and conversely, for any crpix and crplane, and world_to_pixel(pixel_to_world(i,j)) = (i,j) when the reference position is not a pole.", "quantifier": "all pixels, all crpix, crplane, crval, all invertible CD matrices, any list of SIP powers with zero coefficients", "why_tests_cant": "The CD matrix and the offsets are continuous parameters; sampled matrices do not cover nearly singular or rotated ones.", "anchors": ["src/caustics/utils.py: pixel_to_plane, plane_to_pixel, pixel_to_world, world_to_pixel"]}
{"id": "C06", "title": "Pixel quadrature returns exact pixel means of polynomials", "statement": "With the n-point Gauss-Legendre nodes and weights, quad() of a function that is polynomial of degree at most 2n-1 in each of x and y returns exactly the mean of that function over the pixel; in particular constants are returned unchanged for every level.", "quantifier": "all quadrature levels n whose nodes are exact, all pixel scales, all pixel centres, all such polynomials", "why_tests_cant": "Exactness for a whole polynomial space and for every level and pixel cannot be sampled; rounding hides constant-factor slips such as a missing 1/4.", "anchors": ["src/caustics/utils.py: _quad_table, gaussian_quadrature_grid, gaussian_quadrature_integrator, quad"]}
{"id": "C07", "title": "interp1d interpolates, is C1 and reproduces straight lines", "statement": "For strictly increasing knots, interp1d returns y_i at every knot x_i, is continuous with a continuous derivative over the knot range, and if the data lie on a straight line it returns that line at every query in the range.", "quantifier": "all knot tables of length >= 2 with strictly increasing abscissae, all ordinates, all queries inside the knot range", "why_tests_cant": "The property quantifies over the size and content of the table and over a continuum of queries, including the exact knots where the bin search switches.", "anchors": ["src/caustics/utils.py: interp1d, _h_poly"]}
{"id": "C08", "title": "interp1d extend modes hold on both sides of the table", "statement": "With extend='const' a query outside the table returns the nearest end value, with extend='linear' it continues the end segment, and the default extrapolation continues the end cubic; this holds below the first knot as well as above the last one.", "quantifier": "all tables, all queries outside the knot range on either side, all extend modes", "why_tests_cant": "Out-of-range behaviour on both sides for every table; the repository never tests below the first knot.", "anchors": ["src/caustics/utils.py: interp1d"]}
{"id": "C09", "title": "interp2d agrees with the image at pixel centres and never overshoots", "statement": "At the centre of pixel (i,j) interp2d returns exactly im[i][j] in both methods and every padding mode; inside the hull of pixel centres linear interpolation lies between the smallest and the largest of the four surrounding pixels; an image sampled from an affine function is reproduced exactly there; queries outside [-1,1] return 0 in 'zeros' mode and the value at the clamped query in 'clamp' mode; an unknown method or padding is an error.", "quantifier": "all images with both sides >= 2, all queries, both methods, all padding modes", "why_tests_cant": "Image size, contents and query position are unbounded; off-by-half-pixel mistakes appear only for some sizes.", "anchors": ["src/caustics/utils.py: interp2d"]}
{"id": "C10", "title": "interp3d agrees with the cube at voxel centres and never overshoots", "statement": "At the centre of voxel (k,i,j) interp3d returns cube[k][i][j] in both methods; inside the hull of centres linear interpolation stays between the extreme values of the eight surrounding voxels; affine cubes are reproduced; outside [-1,1] it returns 0 in 'zeros' mode.", "quantifier": "all cubes with all sides >= 2, all queries, both methods and padding modes", "why_tests_cant": "Same as C09 in three dimensions; axis mix-ups between time, y and x survive on symmetric test cubes.", "anchors": ["src/caustics/utils.py: interp3d"]}
{"id": "C11", "title": "Bicubic interpolation honours supplied values and derivatives", "statement": "With supplied derivative maps, interp_bicubic returns at every pixel centre exactly the supplied value, x-derivative, y-derivative and cross derivative, and everywhere the returned first and second derivatives are the true derivatives (in pixel units) of the returned value inside a cell; value, first derivatives and cross derivative agree on both sides of a cell boundary.", "quantifier": "all grids with both sides >= 2, all derivative maps, all queries", "why_tests_cant": "It ranges over all grids and a continuum of queries and relates returned derivatives to the returned function, which sampling cannot establish; the 16x16 table is opaque.", "anchors": ["src/caustics/utils.py: BC, interp_bicubic"]}
{"id": "C12", "title": "Default derivative estimates make PixelatedPotential deflect along the gradient of its map", "statement": "When derivatives are not supplied they are central difference estimates of the derivatives of the map, so an affine potential map is reproduced exactly by interp_bicubic and PixelatedPotential.reduced_deflection_angle returns its constant gradient.", "quantifier": "all grid sizes, all affine maps, all queries inside the hull of pixel centres", "why_tests_cant": "Holds for a family of maps of every size; the existing test compares the code with its own autograd derivative and so cannot see a wrong derivative estimate.", "anchors": ["src/caustics/utils.py: bicubic_kernels, interp_bicubic", "src/caustics/lenses/pixelated_potential.py: PixelatedPotential.reduced_deflection_angle"]}
{"id": "C13", "title": "vmap_reduce is independent of the chunk size", "statement": "vmap_reduce with the default sum reduction returns the sum of the function over the whole batch, whatever chunk_size >= 1 is used (or none), every batch element is used exactly once, and no chunk exceeds chunk_size; this holds for both backends' ways of splitting.", "quantifier": "all batch sizes >= 1, all chunk sizes >= 1 or none, all functions, both torch.chunk and array_split splitting", "why_tests_cant": "Batch and chunk size are unbounded and the number of chunks is computed by ceiling division which breaks only at particular remainders.", "anchors": ["src/caustics/utils.py: _chunk_input, vmap_reduce", "src/caustics/backend_obj.py: _chunk_torch, _chunk_jax"]}
{"id": "C14", "title": "BatchedPlane equals SinglePlane over the same lenses", "statement": "BatchedPlane with a batch of parameter vectors returns the same deflection, potential and convergence as the sum over individual lenses, i.e. as SinglePlane containing one copy of the lens for each parameter vector, for every chunk size.", "quantifier": "all lens models, all non-empty parameter batches, all chunk sizes, all positions", "why_tests_cant": "The number of batched lenses and the chunk size are unbounded.", "anchors": ["src/caustics/lenses/batchedplane.py: BatchedPlane", "src/caustics/lenses/singleplane.py: SinglePlane", "src/caustics/utils.py: vmap_reduce"]}
{"id": "C15", "title": "cluster_means returns k distinct input points", "statement": "cluster_means(xs,k) returns k points of the input, and if the input points are pairwise distinct and k does not exceed their number the returned means are pairwise distinct, each being the farthest remaining point from the means already chosen.", "quantifier": "all point sets, all k up to the number of points, every random choice of the first mean", "why_tests_cant": "The first index is random and the point set is arbitrary; a wrong index survives for small k.", "anchors": ["src/caustics/utils.py: cluster_means"]}
{"id": "C16", "title": "Levenberg-Marquardt never makes the fit worse", "statement": "Through any number of iterations of batch_lm the chi-squared of the current point never increases, damping stays within [L_min,L_max], and a step leaves the point unchanged unless it is accepted with gain ratio at least epsilon; for an affine model every step from a non-stationary point is accepted with the default epsilon and strictly lowers chi-squared.", "quantifier": "all models, data, weights, starting points, iteration counts and damping settings with positive bounds", "why_tests_cant": "It is an invariant over all iteration histories of an arbitrary model function.", "anchors": ["src/caustics/utils.py: _lm_step, batch_lm"]}
{"id": "C17", "title": "batch_lm returns a consistent triple", "statement": "The chi-squared returned by batch_lm is the chi-squared of the returned point.", "quantifier": "all models and all histories, whichever of the three exits is taken", "why_tests_cant": "Depends on which exit of the loop is taken, for every history.", "anchors": ["src/caustics/utils.py: batch_lm, _lm_step"]}
{"id": "C18", "title": "gaussian() is a normalised symmetric kernel", "statement": "gaussian(pixelscale,nx,ny,sigma,upsample) has shape ny-by-nx, strictly positive entries that sum to one, and is symmetric under reversal of either axis.", "quantifier": "all shapes, sigma != 0, pixel scales and upsample factors >= 1", "why_tests_cant": "Shapes and upsampling are unbounded and the block-sum reshape is only right if axes are matched.", "anchors": ["src/caustics/utils.py: gaussian"]}
{"id": "C19", "title": "triangle_contains decides membership exactly", "statement": "For a non-degenerate triangle, triangle_contains is true precisely for the points that are convex combinations of the vertices, whatever the orientation of the vertices.", "quantifier": "all non-degenerate triangles of either orientation, all points", "why_tests_cant": "Membership on edges, vertices and for both orientations over a continuum of inputs.", "anchors": ["src/caustics/lenses/func/base.py: triangle_contains"]}
{"id": "C20", "title": "triangle_upsample tiles the parent", "statement": "triangle_upsample returns four triangles whose union is exactly the parent, each with a quarter of its area; a point of the parent is in at least one child and every point of a child is in the parent.", "quantifier": "all triangles and all points", "why_tests_cant": "Coverage with no gap for every triangle and point cannot be sampled.", "anchors": ["src/caustics/lenses/func/base.py: triangle_upsample, triangle_area"]}
{"id": "C21", "title": "triangle_neighbors is the ring of touching lattice triangles", "statement": "triangle_neighbors returns 13 congruent triangles, all with the area of the original; in the triangular lattice generated by the triangle they are exactly the lattice triangles that share at least one vertex with it, each once.", "quantifier": "all triangles", "why_tests_cant": "The claim is about a complete enumeration: a missed neighbour loses images only for particular source positions.", "anchors": ["src/caustics/lenses/func/base.py: triangle_neighbors"]}
{"id": "C22", "title": "Duplicate removal keeps separated representatives", "statement": "remove_duplicate_points returns a sub-list of its input, keeps the first point, any two kept points are at least epsilon apart, and every input point is closer than epsilon to a kept point or kept itself; running it twice changes nothing. remove_triangle_duplicates has the corresponding properties for its tolerance.", "quantifier": "all lists of points or triangles, all epsilon > 0", "why_tests_cant": "Greedy selection over an arbitrary list; needs induction over the list.", "anchors": ["src/caustics/lenses/func/base.py: remove_duplicate_points, remove_triangle_duplicates"]}
{"id": "C23", "title": "Images reported by forward_raytrace map back to the source", "statement": "Whenever forward_raytrace returns normally, every returned position ray-traces to the requested source position within the tolerance, and any two returned positions are at least epsilon apart.", "quantifier": "all ray-tracing functions, source positions, fields of view, grids, tolerances and depths, whatever the inner root finder returns", "why_tests_cant": "It quantifies over the lens itself and over both exits (convergence and max depth) of an unbounded search loop.", "anchors": ["src/caustics/lenses/func/base.py: forward_raytrace, forward_raytrace_rootfind", "src/caustics/lenses/base.py: Lens.forward_raytrace"]}
{"id": "C24", "title": "The initial triangulation covers the field of view and no image of an affine lens is lost", "statement": "The initial triangles cover the whole square field of view for every n >= 2; for an affine ray-tracing map with invertible matrix and a source whose image lies in the field of view, the search keeps at every depth a triangle containing the image, so the search never runs empty.", "quantifier": "all centres, sizes, n >= 2, all invertible affine maps, all sources imaged in the field, all depths", "why_tests_cant": "Coverage of a continuum and an invariant over all search depths.", "anchors": ["src/caustics/lenses/func/base.py: forward_raytrace, triangle_neighbors, triangle_upsample, triangle_contains, remove_triangle_duplicates"]}
{"id": "C25", "title": "forward_raytrace returns the (possibly empty) list of images instead of crashing", "statement": "forward_raytrace returns normally for every source position, reporting no images when the search finds no triangle containing the source.", "quantifier": "all ray-tracing maps and source positions", "why_tests_cant": "Needs a source outside the traced region or a depth limit hit early; tests use sources that have images.", "anchors": ["src/caustics/lenses/func/base.py: forward_raytrace"]}
{"id": "C26", "title": "Physical and reduced deflection angles are inverse conversions", "statement": "physical_from_reduced_deflection_angle and reduced_from_physical_deflection_angle with the same distances undo one another, both are linear, and reduced = (D_ls/D_s) physical.", "quantifier": "all deflections and all non-zero distances", "why_tests_cant": "A continuum identity used by every lens.", "anchors": ["src/caustics/lenses/func/base.py: physical_from_reduced_deflection_angle, reduced_from_physical_deflection_angle", "src/caustics/lenses/base.py: ThinLens.physical_deflection_angle"]}
{"id": "C27", "title": "Jacobian, shear, magnification and convergence are mutually consistent", "statement": "For any thin lens whose deflection is the gradient of a potential with divergence 2*kappa, the Jacobian of the lens equation is I minus the Jacobian of the deflection, the reported shear (g1,g2) satisfies det A = (1-kappa)^2 - g1^2 - g2^2, and magnification is 1/|det A|.", "quantifier": "all lenses and positions where the deflection is differentiable and det A is not zero", "why_tests_cant": "An identity between four public methods over all lenses.", "anchors": ["src/caustics/lenses/base.py: Lens.shear, Lens.magnification, ThinLens._jacobian_lens_equation_autograd", "src/caustics/lenses/utils.py: pixel_magnification, magnification"]}
{"id": "C28", "title": "Finite-difference Jacobian is exact on affine deflections and puts derivatives in the right slots", "statement": "On a regular meshgrid, the finite difference Jacobian of an affine deflection field equals its exact Jacobian at every pixel, including the borders; methods other than autograd/finitediff, or finitediff without pixelscale, raise an error.", "quantifier": "all grid shapes with sides >= 2, all pixel scales, all affine deflections, all pixels", "why_tests_cant": "Array shapes are unbounded; a transposed slot is invisible for symmetric Jacobians used in tests.", "anchors": ["src/caustics/lenses/base.py: _jacobian_deflection_angle_finitediff, jacobian_lens_equation"]}
{"id": "C29", "title": "SinglePlane is the superposition of its lenses in any order", "statement": "SinglePlane deflection, potential and convergence are the sums over its lenses, do not depend on the order of the lenses, are additive under concatenation of lens lists, vanish for no lenses, and stay mutually consistent: if every lens satisfies deflection = grad potential and convergence = half divergence then so does the plane.", "quantifier": "all lists of lenses, all permutations, all positions", "why_tests_cant": "Unbounded lists and all permutations.", "anchors": ["src/caustics/lenses/singleplane.py: SinglePlane"]}
{"id": "C30", "title": "Multiplane ray tracing follows the multi-plane recursion", "statement": "Multiplane.raytrace equals the standard multi-plane lens equation: the source position is theta minus the sum over planes of (D_is/D_s) times the physical deflection at the position of the ray on that plane, the ray position on each plane being given by the same formula truncated at that plane; in particular with one plane it equals ThinLens.raytrace of that lens.", "quantifier": "all numbers of planes, all redshifts given in non-decreasing order with distinct distances, all deflection laws, all positions", "why_tests_cant": "Recursion over an unbounded number of planes.", "anchors": ["src/caustics/lenses/multiplane.py: Multiplane._raytrace_helper, Multiplane.raytrace"]}
{"id": "C31", "title": "Multiplane does not depend on the order in which lenses are listed", "statement": "Listing the same lenses in a different order gives the same ray tracing result and the same time delay.", "quantifier": "all lens lists with pairwise distinct redshifts and all permutations", "why_tests_cant": "All permutations of unbounded lists; tests list lenses in increasing redshift only.", "anchors": ["src/caustics/lenses/multiplane.py: Multiplane._raytrace_helper"]}
{"id": "C32", "title": "A massless plane changes nothing in Multiplane", "statement": "Inserting at any redshift before the source a lens plane with zero deflection and potential leaves ray tracing unchanged.", "quantifier": "all lens lists in redshift order, all insertion redshifts, all positions", "why_tests_cant": "Quantifies over the whole configuration; depends on additivity of distances.", "anchors": ["src/caustics/lenses/multiplane.py: Multiplane._raytrace_helper"]}
{"id": "C33", "title": "One-plane Multiplane time delay equals the thin lens time delay", "statement": "Multiplane.time_delay with a single plane equals ThinLens.time_delay of that lens, for each combination of the shapiro and geometric flags.", "quantifier": "all lenses, redshifts z_l < z_s, positions and flag combinations", "why_tests_cant": "A relation between two classes for every lens and redshift; the existing test checks only that values are finite.", "anchors": ["src/caustics/lenses/multiplane.py: Multiplane.time_delay", "src/caustics/lenses/base.py: ThinLens.time_delay"]}
{"id": "C34", "title": "Thin lens time delays obey Fermat's principle", "statement": "For two images of one source, the difference of time_delay is the difference of the Fermat surface (1+z_l) D_l D_s/(c D_ls) (|theta-beta|^2/2 - psi) in days; that surface is stationary at exactly the positions that ray-trace to beta; with both flags off the delay is 0 and the two flags contribute additively.", "quantifier": "all lenses with deflection = grad potential, all source and image positions, all redshifts, all flags", "why_tests_cant": "Stationarity is a derivative statement over all lenses and sources.", "anchors": ["src/caustics/lenses/base.py: ThinLens.time_delay, ThinLens._arcsec2_to_days", "src/caustics/lenses/func/base.py: time_delay_arcsec2_to_days"]}
{"id": "C35", "title": "Cosmological distances compose", "statement": "In any cosmology, comoving distances between redshifts add up (d(z1,z2)+d(z2,z3)=d(z1,z3), d(z,z)=0), angular diameter distance is comoving over (1+z), (1+z2) D_A(z1,z2) = (1+z2) D_A(z2) - (1+z1) D_A(z1), critical surface density times 4 pi G/c^2 D_l D_ls equals D_s, and the time delay distance relates to it accordingly.", "quantifier": "all comoving distance functions and all redshifts with non-zero denominators", "why_tests_cant": "Identities over all redshift triples and for any cosmology subclass.", "anchors": ["src/caustics/cosmology/base.py: Cosmology"]}
{"id": "C36", "title": "FlatLambdaCDM: zero distance at z=0, density law and Hubble scaling", "statement": "In FlatLambdaCDM the comoving distance at z=0 is exactly 0, scales as 1/h0, depends only on the interpolated table, equals the closed form at redshifts whose scaled argument is a table knot; critical density at z=0 is critical_density_0 for every Om0, and is increasing in z for 0<Om0.", "quantifier": "all h0, 0<Om0<1, all z >= 0, all interpolation tables", "why_tests_cant": "Range over parameters and table contents.", "anchors": ["src/caustics/cosmology/FlatLambdaCDM.py: FlatLambdaCDM"]}
{"id": "C37", "title": "Ellipticity (e1,e2) and (q,phi) round trips", "statement": "qphi_to_e1e2(e1e2_to_qphi(e1,e2)) = (e1,e2) whenever e1^2+e2^2 <= 1, and e1e2_to_qphi(qphi_to_e1e2(q,phi)) returns q for 0<=q<=1 and, for q<1, phi up to a multiple of pi; q is always in [0,1].", "quantifier": "all (e1,e2) in the unit disc, all 0<=q<=1, all angles", "why_tests_cant": "Continuum with the branch cut of arctan2.", "anchors": ["src/caustics/angle_mixin.py: e1e2_to_q, e1e2_to_phi, e1e2_to_qphi, qphi_to_e1e2"]}
{"id": "C38", "title": "(c1,c2) and (q,phi) round trips", "statement": "qphi_to_c1c2(c1c2_to_qphi(c1,c2)) = (c1,c2) for all (c1,c2), and c1c2_to_qphi(qphi_to_c1c2(q,phi)) returns q for 0<q<=1 and, for q<1, phi up to a multiple of pi; q is always in (0,1].", "quantifier": "all (c1,c2), all 0<q<=1, all angles", "why_tests_cant": "Continuum with the branch cut of arctan2.", "anchors": ["src/caustics/angle_mixin.py: c1c2_to_q, c1c2_to_phi, c1c2_to_qphi, qphi_to_c1c2"]}
{"id": "C39", "title": "angle_system can be switched in any order without corrupting parameters", "statement": "After any sequence of assignments to angle_system (valid or not), exactly the parameters of the current system exist beside q and phi, q and phi are computed from them by the conversion of that system (free in the q_phi system), no stale link remains, and an invalid name raises an error and changes nothing.", "quantifier": "all finite sequences of assignments, of any length, with any strings", "why_tests_cant": "A history property over unbounded sequences.", "anchors": ["src/caustics/angle_mixin.py: Angle_Mixin.angle_system"]}
{"id": "C40", "title": "parametrization can be switched in any order without corrupting parameters", "statement": "For Point, SIE and ExternalShear, after any sequence of assignments to parametrization the native parameters are free in the native system and computed from the alternative parameters in the other one, the alternative parameters exist only in the latter, an invalid name raises an error and changes nothing, and no stale links remain.", "quantifier": "all finite sequences of assignments with any strings, three classes", "why_tests_cant": "A history property over unbounded sequences.", "anchors": ["src/caustics/lenses/point.py: Point.parametrization", "src/caustics/lenses/sie.py: SIE.parametrization", "src/caustics/lenses/external_shear.py: ExternalShear.parametrization"]}
{"id": "C41", "title": "Point lens: mass and Einstein radius conversions are inverse", "statement": "mass_to_rein_point and rein_to_mass_point undo each other for non-negative mass and radius, and the mass inside the Einstein radius is pi*Rein^2*D_l^2 times the critical surface density.", "quantifier": "all masses, radii and positive distances", "why_tests_cant": "Continuum identity linking two functions and the cosmology.", "anchors": ["src/caustics/lenses/func/point.py: mass_to_rein_point, rein_to_mass_point"]}
{"id": "C42", "title": "MassSheet and ExternalShear: deflection is the gradient of the potential, convergence its half divergence", "statement": "For MassSheet and ExternalShear the deflection is the gradient of the potential at every point, is curl free, and half its divergence is the convergence; the mass sheet maps raytrace to (1-kappa) scaling about its centre; angular shear parameters give the same lens rotated.", "quantifier": "all parameters and all positions", "why_tests_cant": "It equates derivatives of one public method with another over a continuum of parameters and positions; tests sample autograd at ten by ten points of one parameter set.", "anchors": ["src/caustics/lenses/func/mass_sheet.py: reduced_deflection_angle_mass_sheet, potential_mass_sheet, convergence_mass_sheet", "src/caustics/lenses/func/external_shear.py: reduced_deflection_angle_external_shear, potential_external_shear, gamma_phi_to_gamma1, gamma_phi_to_gamma2"]}
{"id": "C43", "title": "SIS: potential, deflection and convergence are consistent, deflection has constant length", "statement": "For SIS without softening the deflection is the gradient of the potential, half its divergence is the convergence, and it has length Rein everywhere off the centre.", "quantifier": "all parameters in their valid range, all centres and angles, all positions away from the singular centre", "why_tests_cant": "It equates derivatives of one public method with another over a continuum of parameters and positions; tests sample autograd at ten by ten points of one parameter set.", "anchors": ["src/caustics/lenses/func/sis.py: reduced_deflection_angle_sis, potential_sis, convergence_sis"]}
{"id": "C44", "title": "Point: potential, deflection and convergence are consistent, Einstein ring maps to the centre", "statement": "For Point without softening the deflection is the gradient of the potential, divergence free off the centre (convergence 0), the circle of radius Rein maps exactly onto the lens centre, and the convergence is infinite only at the centre.", "quantifier": "all parameters in their valid range, all centres and angles, all positions away from the singular centre", "why_tests_cant": "It equates derivatives of one public method with another over a continuum of parameters and positions; tests sample autograd at ten by ten points of one parameter set.", "anchors": ["src/caustics/lenses/func/point.py: reduced_deflection_angle_point, potential_point, convergence_point, mass_to_rein_point, rein_to_mass_point"]}
{"id": "C45", "title": "Softened SIS and Point stay consistent", "statement": "With a softening length s > 0 the SIS and Point deflections are still the gradient of their potentials and half their divergence is the convergence.", "quantifier": "all parameters with s > 0 and all positions", "why_tests_cant": "Same as C43/C44 with the softening parameter; tests use the default s=0.", "anchors": ["src/caustics/lenses/func/sis.py: reduced_deflection_angle_sis, potential_sis, convergence_sis", "src/caustics/lenses/func/point.py: reduced_deflection_angle_point, potential_point, convergence_point, mass_to_rein_point, rein_to_mass_point"]}
{"id": "C46", "title": "SIE: potential, deflection and convergence are consistent without a core and for every core radius from 1e-6 on", "statement": "For SIE with 0<q<1 and core radius s=0 or s>=1e-6 the deflection is the gradient of the potential, curl free, and half its divergence is the convergence.", "quantifier": "all parameters in their valid range, all centres and angles, all positions away from the singular centre", "why_tests_cant": "It equates derivatives of one public method with another over a continuum of parameters and positions; tests sample autograd at ten by ten points of one parameter set.", "anchors": ["src/caustics/lenses/func/sie.py: reduced_deflection_angle_sie, potential_sie, convergence_sie, sigma_v_to_rein_sie"]}
{"id": "C47", "title": "SIE: isodensity contours, homogeneity and velocity dispersion", "statement": "SIE convergence is constant on ellipses of axis ratio q, and for s=0 the deflection is homogeneous of degree 0 and the potential equals x.alpha; exchanging (q, phi) for an equivalent angle phi+pi changes nothing; the Einstein radius obtained from a velocity dispersion is proportional to sigma^2 D_ls/D_s.", "quantifier": "all parameters in their valid range, all centres and angles, all positions away from the singular centre", "why_tests_cant": "Symmetry statements over all parameters.", "anchors": ["src/caustics/lenses/func/sie.py: reduced_deflection_angle_sie, potential_sie, convergence_sie, sigma_v_to_rein_sie", "src/caustics/lenses/sie.py: SIE.parametrization, SIE.reduced_deflection_angle, SIE.potential, SIE.convergence"]}
{"id": "C48", "title": "EPL: the result does not depend on how the series is chunked", "statement": "The EPL deflection angle is the same for every chunk_size from 1 to n_iter (and for none).", "quantifier": "all n_iter >= 1 and all chunk sizes between 1 and n_iter, all positions and parameters", "why_tests_cant": "n_iter and chunk size are unbounded; only particular combinations are tested.", "anchors": ["src/caustics/lenses/func/epl.py: _r_omega"]}
{"id": "C49", "title": "EPL: deflection, potential and convergence are consistent up to the truncated series term", "statement": "For EPL with 0<q<=1, 0<t<2 and the series truncated after n_iter terms, half the divergence of the deflection differs from the convergence by at most kappa*((1-q)/(1+q))^(n_iter-1) times a constant, exactly 0 for q=1; the deflection scales as r^(1-t), the potential is (x.alpha)/(2-t); for t=1 and q=1 it is the SIS.", "quantifier": "all parameters in their valid range, all centres and angles, all positions away from the singular centre, all n_iter", "why_tests_cant": "Convergence of a series for all parameters.", "anchors": ["src/caustics/lenses/func/epl.py: _r_omega, reduced_deflection_angle_epl, potential_epl, convergence_epl"]}
{"id": "C50", "title": "Multipole: potential, deflection and convergence are consistent", "statement": "For every list of multipole orders m >= 2 the deflection is the gradient of the potential and half its divergence is the convergence at every point off the centre.", "quantifier": "all lists of orders, amplitudes and angles, all positions off the centre", "why_tests_cant": "Sum over unbounded lists and the branch cut of arctan2.", "anchors": ["src/caustics/lenses/func/multipole.py: reduced_deflection_angle_multipole, potential_multipole, convergence_multipole"]}
{"id": "C51", "title": "PseudoJaffe: potential, deflection, convergence and enclosed mass are consistent", "statement": "For PseudoJaffe (no softening, Rc != Rs) the deflection is the gradient of the potential, half its divergence is the convergence, the enclosed mass has derivative 2 pi R Sigma(R), vanishes at R=0 and tends to the total mass, and deflection is M(R)/(pi R Sigma_cr) outward.", "quantifier": "all parameters in their valid range, all centres and angles, all positions away from the singular centre", "why_tests_cant": "It equates derivatives of one public method with another over a continuum of parameters and positions; tests sample autograd at ten by ten points of one parameter set.", "anchors": ["src/caustics/lenses/func/pseudo_jaffe.py: convergence_0_pseudo_jaffe, mass_enclosed_2d_pseudo_jaffe, reduced_deflection_angle_pseudo_jaffe, potential_pseudo_jaffe, convergence_pseudo_jaffe", "src/caustics/lenses/pseudo_jaffe.py: PseudoJaffe.get_convergence_0, PseudoJaffe.mass_enclosed_2d, PseudoJaffe.reduced_deflection_angle, PseudoJaffe.potential, PseudoJaffe.convergence"]}
{"id": "C52", "title": "NFW: potential, deflection and convergence are consistent", "statement": "For NFW without softening, away from the scale radius window |r-1|<=1e-6 the reduced deflection is the gradient of the potential and half its divergence is the convergence, with the same critical surface density and distances.", "quantifier": "all parameters in their valid range, all centres and angles, all positions away from the singular centre", "why_tests_cant": "It equates derivatives of one public method with another over a continuum of parameters and positions; tests sample autograd at ten by ten points of one parameter set.", "anchors": ["src/caustics/lenses/func/nfw.py: scale_radius_nfw, scale_density_nfw, convergence_s_nfw, _f_nfw, _g_nfw, _h_nfw, physical_deflection_angle_nfw, convergence_nfw, potential_nfw", "src/caustics/lenses/nfw.py: NFW.physical_deflection_angle, NFW.reduced_deflection_angle, NFW.convergence, NFW.potential"]}
{"id": "C53", "title": "NFW convergence is finite and continuous at the scale radius", "statement": "The NFW convergence is finite at every radius r>0 and continuous, including r equal to the scale radius.", "quantifier": "all radii r > 0", "why_tests_cant": "A single real radius out of a continuum is affected.", "anchors": ["src/caustics/lenses/func/nfw.py: _f_nfw, convergence_nfw"]}
{"id": "C54", "title": "NFW normalisation: mass inside the virial radius", "statement": "The NFW scale density and scale radius returned for (mass,c) describe a halo whose mean density within c*scale_radius is DELTA times the critical density and whose mass inside that radius is `mass`.", "quantifier": "all positive masses, concentrations, densities", "why_tests_cant": "Integral identity over all parameters.", "anchors": ["src/caustics/lenses/func/nfw.py: scale_radius_nfw, scale_density_nfw"]}
{"id": "C55", "title": "TNFW: potential, deflection, convergence and enclosed mass are consistent", "statement": "For TNFW without softening, away from the series windows around r=Rs, the deflection is the gradient of the potential, half its divergence is the convergence, and the enclosed projected mass has derivative 2 pi R Sigma(R).", "quantifier": "all parameters in their valid range, all centres and angles, all positions away from the singular centre", "why_tests_cant": "It equates derivatives of one public method with another over a continuum of parameters and positions; tests sample autograd at ten by ten points of one parameter set.", "anchors": ["src/caustics/lenses/func/tnfw.py: concentration_tnfw, _F_tnfw, _L_tnfw, scale_density_tnfw, M0_totmass_tnfw, M0_scalemass_tnfw, mass_enclosed_2d_tnfw, physical_deflection_angle_tnfw, convergence_tnfw, _P_tnfw, potential_tnfw", "src/caustics/lenses/tnfw.py: TNFW.M0, TNFW.convergence, TNFW.mass_enclosed_2d, TNFW.physical_deflection_angle, TNFW.reduced_deflection_angle, TNFW.potential"]}
{"id": "C56", "title": "TNFW total mass", "statement": "With interpret_m_total_mass the projected mass enclosed within radius R tends to `mass` as R grows and to 0 as R shrinks to 0.", "quantifier": "all masses and truncation ratios tau > 0", "why_tests_cant": "A limit statement over all parameters.", "anchors": ["src/caustics/lenses/func/tnfw.py: M0_totmass_tnfw, mass_enclosed_2d_tnfw"]}
{"id": "C57", "title": "EnclosedMass: deflection of a circular profile is that of its enclosed mass", "statement": "For a circular enclosed mass profile M(R), half the divergence of the deflection equals the reported convergence, so a constant M outside some radius deflects like a point mass, falling off as 1/R.", "quantifier": "all enclosed mass functions, positions", "why_tests_cant": "Relates two methods for an arbitrary user function; the existing test only checks finiteness.", "anchors": ["src/caustics/lenses/func/enclosed_mass.py: physical_deflection_angle_enclosed_mass, convergence_enclosed_mass", "src/caustics/lenses/enclosed_mass.py: EnclosedMass.physical_deflection_angle, EnclosedMass.reduced_deflection_angle, EnclosedMass.potential, EnclosedMass.convergence"]}
{"id": "C58", "title": "PixelatedConvergence is linear in its map", "statement": "Deflection and potential of PixelatedConvergence are linear in the convergence map (for every padding, both convolution modes), proportional to scale, and zero for the zero map.", "quantifier": "all map sizes, maps, paddings, modes, positions", "why_tests_cant": "Unbounded map sizes and contents.", "anchors": ["src/caustics/lenses/func/pixelated_convergence.py: build_kernels_pixelated_convergence, build_window_pixelated_convergence, _fft_size, _fft2_padded, _unpad_fft, reduced_deflection_angle_pixelated_convergence, potential_pixelated_convergence", "src/caustics/lenses/pixelated_convergence.py: PixelatedConvergence.reduced_deflection_angle, PixelatedConvergence.potential, PixelatedConvergence.convergence"]}
{"id": "C59", "title": "PixelatedConvergence: the deflection is centred on the mass", "statement": "The deflection map of a single bright pixel is antisymmetric about that pixel, in particular it vanishes at the pixel itself.", "quantifier": "all map sizes and pixel positions", "why_tests_cant": "Half-pixel misalignments show only as small errors in tolerance-based tests.", "anchors": ["src/caustics/lenses/func/pixelated_convergence.py: build_kernels_pixelated_convergence, _unpad_fft"]}
{"id": "C60", "title": "PixelatedConvergence: fft and conv2d modes agree", "statement": "The fft and conv2d convolution modes give the same deflection and potential for zero padding.", "quantifier": "all map sizes, maps and positions", "why_tests_cant": "Unbounded sizes; the existing test compares values below its absolute tolerance.", "anchors": ["src/caustics/lenses/func/pixelated_convergence.py: reduced_deflection_angle_pixelated_convergence"]}
{"id": "C61", "title": "Sersic profile shape", "statement": "Sersic brightness equals Ie on the ellipse of elliptical radius Re, is positive, strictly decreasing with elliptical radius when k>0, constant on ellipses, and k is positive over the valid range of n for both formulas.", "quantifier": "all parameters in the valid range, all positions", "why_tests_cant": "Monotonicity and level sets over a continuum.", "anchors": ["src/caustics/light/func/sersic.py: k_sersic, k_lenstronomy, brightness_sersic", "src/caustics/light/sersic.py: Sersic.brightness"]}
{"id": "C62", "title": "StarSource is a limb-darkened disc of radius theta_s", "statement": "StarSource is zero outside radius theta_s, equals Ie at the centre, is finite everywhere and between (1-gamma) Ie and Ie inside the disc, for every theta_s.", "quantifier": "all radii theta_s > 0, 0<=gamma<=1, positions", "why_tests_cant": "All radii, in particular stars larger than one arcsecond; the test samples a grid far inside the disc.", "anchors": ["src/caustics/light/func/star_source.py: brightness_star", "src/caustics/light/star_source.py: StarSource.brightness"]}
{"id": "C63", "title": "Pixelated and PixelatedTime sources place pixels correctly", "statement": "Pixelated.brightness at the sky position of the centre of pixel (i,j) is scale*image[i][j], for any x0,y0, pixelscale and non-square image; outside the field it is 0 in the default mode; PixelatedTime does the same in time with frames centred at (k+1/2) t_end/nt.", "quantifier": "all image sizes, contents, pixel scales, centres", "why_tests_cant": "Unbounded sizes, non-square images.", "anchors": ["src/caustics/light/pixelated.py: Pixelated.brightness", "src/caustics/light/pixelated_time.py: PixelatedTime.brightness"]}
{"id": "C64", "title": "LightStack adds brightness in any order", "statement": "LightStack brightness is the sum of its models' brightness, independent of order, nested stacks flatten, and an empty stack is dark.", "quantifier": "all lists of light models, permutations and nestings", "why_tests_cant": "Unbounded lists and all permutations.", "anchors": ["src/caustics/light/light_stack.py: LightStack.brightness"]}
{"id": "C65", "title": "LensSource preserves constant surface brightness", "statement": "If the scene brightness is constant then every pixel of the LensSource image has that value, for every upsample factor, quadrature level, normalisable PSF and PSF mode on square fields.", "quantifier": "all image sizes, upsample factors, quadrature levels, PSFs with non-zero sum", "why_tests_cant": "All combinations of unbounded size parameters.", "anchors": ["src/caustics/sims/lens_source.py: LensSource"]}
{"id": "C66", "title": "LensSource: fft and conv2d PSF modes agree and do not wrap around", "statement": "The PSF convolution in fft mode equals the one in conv2d mode, both equal to the plain convolution with the normalised PSF centred on its middle pixel, for every image shape and PSF shape, with no wrap-around inside the returned image.", "quantifier": "all image shapes (square or not), PSF shapes odd or even, all images and PSFs", "why_tests_cant": "Unbounded shapes, boundary pixels.", "anchors": ["src/caustics/sims/lens_source.py: LensSource.__call__, _fft2_padded, _unpad_fft, _build_grid"]}
{"id": "C67", "title": "LensSource returns pixels_y by pixels_x pixels", "statement": "The returned image has shape (pixels_y, pixels_x) for every setting of upsample factor, quadrature level, PSF shape and PSF mode.", "quantifier": "all settings", "why_tests_cant": "Unbounded integer settings, non-square fields.", "anchors": ["src/caustics/sims/lens_source.py: LensSource"]}
{"id": "C68", "title": "LensSource is additive in its light components", "statement": "The image with source and lens light is the pixelwise sum of the images with each one alone; with both off it is zero; the image is linear in brightness; with a lens that does not deflect, lensed and unlensed images are equal; rescaling the PSF changes nothing; chunk_size changes nothing.", "quantifier": "all sources, lens lights, lenses, PSFs, flags, grids", "why_tests_cant": "Arbitrary functions as sources.", "anchors": ["src/caustics/sims/lens_source.py: LensSource.__call__"]}
{"id": "C69", "title": "Microlens flux of a uniform source is brightness times area", "statement": "With the grid method the flux of a scene of constant brightness is brightness times field area with error estimate 0; in general the flux lies between area times the smallest and largest sampled brightness; an unknown method is an error.", "quantifier": "all fields, grid sizes, sample sets, brightness functions", "why_tests_cant": "Arbitrary brightness and sample sets.", "anchors": ["src/caustics/sims/microlens.py: Microlens"]}
{"id": "C70", "title": "build_simulator resolves every reference to the module of the object it names", "statement": "In a configuration where objects refer to earlier objects, each reference is replaced by the module built for that earlier object and the last object is returned.", "quantifier": "all finite configurations", "why_tests_cant": "Histories of unbounded length with shared or identical sub-configurations.", "anchors": ["src/caustics/sims/simulator.py: build_simulator"]}
{"id": "C71", "title": "Thick lens effective quantities agree with thin lens ones", "statement": "For a Multiplane with one plane the effective reduced deflection is the thin lens deflection and the effective convergence (divergence) is its convergence while the curl part vanishes.", "quantifier": "all lenses and positions", "why_tests_cant": "Relates two classes over all lenses.", "anchors": ["src/caustics/lenses/base.py: ThickLens.effective_reduced_deflection_angle, effective_convergence_div, effective_convergence_curl"]}
{"id": "C72", "title": "PixelatedDeflection returns its map at pixel centres", "statement": "PixelatedDeflection returns the supplied x and y deflections at pixel centres for any centre, pixelscale and non-square map, and 0 outside; potential and convergence are refused.", "quantifier": "all map sizes and contents, centres, scales", "why_tests_cant": "Unbounded, non-square maps.", "anchors": ["src/caustics/lenses/pixelated_deflection.py: PixelatedDeflection.reduced_deflection_angle, PixelatedDeflection.potential, PixelatedDeflection.convergence"]}
{"id": "C73", "title": "safe_divide and safe_log are total", "statement": "safe_divide and safe_log return the ordinary quotient/logarithm whenever the denominator/argument is non-zero (positive) and 0 at zero.", "quantifier": "all real inputs", "why_tests_cant": "Total behaviour at the exceptional points.", "anchors": ["src/caustics/utils.py: safe_divide, safe_log"]}
{"id": "C74", "title": "EPL convergence equals SIE convergence for the isothermal slope", "statement": "For t=1 and s=0 the EPL convergence equals the SIE convergence with the same parameters at every position.", "quantifier": "all parameters in their valid range, all centres and angles, all positions away from the singular centre", "why_tests_cant": "Identity between two lens models over all parameters.", "anchors": ["src/caustics/lenses/func/epl.py: convergence_epl", "src/caustics/lenses/func/sie.py: convergence_sie"]}
{"id": "C75", "title": "FlatLambdaCDM comoving distance grows with redshift and tracks the exact integral inside its table", "statement": "As long as (1+z)*(Om0/(1-Om0))^(1/3) stays inside the tabulated range, the comoving distance of FlatLambdaCDM is strictly increasing in z and differs from the exact distance (Hubble distance times the integral of 1/E) by at most one sixteenth of it; short of the last table cell ((1+z)*(Om0/(1-Om0))^(1/3) <= 9.8) that distance, and the distance between any two redshifts, is off by at most one part in 500.", "quantifier": "all h0>0, 0<Om0<1, all redshifts inside the table range, including those between knots", "why_tests_cant": "A continuum of parameters and of redshifts between the 500 knots; tests compare a handful of redshifts.", "anchors": ["src/caustics/cosmology/FlatLambdaCDM.py: FlatLambdaCDM", "src/caustics/utils.py: interp1d"]}
{"id": "C76", "title": "FlatLambdaCDM comoving distance stays accurate at every redshift", "statement": "The comoving distance returned by FlatLambdaCDM approximates the exact distance at every redshift z>=0, including those beyond the end of the interpolation table (for instance the last scattering surface).", "quantifier": "all h0>0, 0<Om0<1, all z>=0", "why_tests_cant": "Tests sample low redshifts; extrapolation past the table is never exercised.", "anchors": ["src/caustics/cosmology/FlatLambdaCDM.py: FlatLambdaCDM", "src/caustics/utils.py: interp1d"]}
{"id": "C77", "title": "PixelatedPotential: potential, deflection and convergence are consistent with each other", "statement": "For every potential map, inside the grid the reduced deflection angle returned by PixelatedPotential is the gradient of the potential it returns (also across cell boundaries), and inside each cell half the divergence of the deflection is the convergence.", "quantifier": "all maps of both sides >= 2, all centres and pixel scales, all positions inside the grid", "why_tests_cant": "Relates derivatives of one method to another over all maps and a continuum of positions; autograd tests sample a few points of one map.", "anchors": ["src/caustics/lenses/pixelated_potential.py: PixelatedPotential", "src/caustics/utils.py: interp_bicubic"]}
{"id": "C78", "title": "PseudoJaffe: the central convergence helpers describe the profile", "statement": "get_convergence_0 equals the convergence at the centre of the lens, and central_convergence(rho_0,Rc,Rs,Sigma_cr) is the line-of-sight integral of the density rho_0/((1+r^2/Rc^2)(1+r^2/Rs^2)) through the centre divided by Sigma_cr.", "quantifier": "all parameters with Rc,Rs > 0 and Rc != Rs", "why_tests_cant": "the projection is an improper integral over the whole line of sight, for all real parameters", "anchors": ["src/caustics/lenses/pseudo_jaffe.py:165-244", "src/caustics/lenses/func/pseudo_jaffe.py:6-47"]}
{"id": "C79", "title": "Pixelated sources can evaluate every image they accept", "statement": "Every image accepted by the constructors of Pixelated (2D or 3D, channels first) and PixelatedTime (3D or 4D) can be evaluated at any position without an error.", "quantifier": "all accepted numbers of dimensions, shapes, positions", "why_tests_cant": "The constructor check and the evaluation live in different functions; tests only use one number of dimensions.", "anchors": ["src/caustics/light/pixelated.py: Pixelated.__init__, Pixelated.brightness", "src/caustics/light/pixelated_time.py: PixelatedTime.__init__, PixelatedTime.brightness", "src/caustics/utils.py: interp2d, interp3d"]}
{"id": "C80", "title": "A LensSource whose settings were changed behaves like one built with the final settings", "statement": "After any sequence of assignments to pixels_x, pixels_y, pixelscale, upsample_factor, quad_level, psf_shape and psf_mode, accepted or refused, the simulator produces the same images as a new one built with the last accepted value of each; a zero upsample factor, a zero quadrature level and an unknown mode are refused and change nothing.", "quantifier": "all initial settings and all finite sequences of assignments", "why_tests_cant": "Histories of unbounded length; a stale cached grid shows only for particular orders.", "anchors": ["src/caustics/sims/lens_source.py: LensSource property setters, _build_grid"]}
{"id": "C81", "title": "Unit conversions and physical constants agree with one another", "statement": "A full turn is 360 degrees, 1296000 arcsec and 2 pi; converting an angle to another unit and back returns it. The critical surface density (computed with G/c^2 in Mpc) equals c^2/(4 pi G) d_s/(d_l d_ls) with the published c and G, and the Hubble distance (computed with c in Mpc/s and a hard-coded kilometre) equals c/(100 h0) to one part in 10^10.", "quantifier": "all angles, all redshifts and cosmologies with non-zero distances, all h0 > 0", "why_tests_cant": "The constants come from several sources and are used in different modules; a test compares outputs with reference values computed with the same constants.", "anchors": ["src/caustics/constants.py", "src/caustics/cosmology/base.py: critical_surface_density", "src/caustics/cosmology/FlatLambdaCDM.py: hubble_distance"]}
{"id": "C82", "title": "The mass distribution of a halo does not depend on the source", "statement": "For PseudoJaffe, NFW and TNFW, changing the source redshift leaves surface_density and physical_deflection_angle unchanged at every position and rescales the potential by d_ls/d_s; a lens has the critical surface density where its convergence is 1.", "quantifier": "all parameters, positions and pairs of source redshifts with non-zero distances", "why_tests_cant": "Tests fix one source redshift; the cancellation between critical density and convergence must hold for all.", "anchors": ["src/caustics/lenses/base.py: ThinLens.surface_density, physical_deflection_angle", "src/caustics/lenses/pseudo_jaffe.py", "src/caustics/lenses/nfw.py", "src/caustics/lenses/tnfw.py"]}
{"id": "C83", "title": "Lenses at one redshift in Multiplane behave as a SinglePlane", "statement": "Wrapping lenses of equal redshift in a SinglePlane does not change what the Multiplane ray-traces, and a Multiplane whose lenses all have one redshift ray-traces like the SinglePlane lens itself; the same holds of time delays.", "quantifier": "all listings by increasing redshift, all lenses, positions, non-zero distances", "why_tests_cant": "Tests use a few stacks of distinct redshifts; the claim is about every stack and involves a zero distance between planes.", "anchors": ["src/caustics/lenses/multiplane.py: Multiplane.raytrace, Multiplane.time_delay", "src/caustics/lenses/singleplane.py"]}
{"id": "C84", "title": "The mass-sheet degeneracy holds", "statement": "Multiplying all the mass of a thin lens by 1-kappa and adding a MassSheet of convergence kappa in a SinglePlane leaves the image configurations unchanged, scales source positions about the sheet's centre by 1-kappa, divides every magnification by (1-kappa)^2 and multiplies the time delays between images of one source by 1-kappa.", "quantifier": "all thin lenses and their scaled versions, all kappa (not 1 for magnifications), all centres, positions and source redshifts", "why_tests_cant": "It relates four different methods of arbitrary lenses; a test only samples some.", "anchors": ["src/caustics/lenses/mass_sheet.py", "src/caustics/lenses/singleplane.py", "src/caustics/lenses/base.py: raytrace, magnification, time_delay"]}
{"id": "C85", "title": "SIS and Point lenses form the textbook images", "statement": "For an unsoftened SIS a source at distance b from the lens has exactly the images at b+Rein and, if b<Rein, b-Rein along its direction, magnified Rein/b+1 and Rein/b-1; for a Point lens exactly the two images (b +- sqrt(b^2+4 Rein^2))/2, with total magnification (u^2+2)/(u sqrt(u^2+4)), u=b/Rein. Only the Einstein ring is infinitely magnified.", "quantifier": "all lens positions, Einstein radii, source distances and directions; all image-plane positions off the lens centre", "why_tests_cant": "That there are no other images is a statement about every position; the magnification goes through autodiff.", "anchors": ["src/caustics/lenses/func/sis.py", "src/caustics/lenses/func/point.py", "src/caustics/lenses/base.py: raytrace, magnification"]}
{"id": "C86", "title": "Results do not depend on the array backend", "statement": "The array operations the library calls through its backend object return the same values whether torch or jax is selected: pad gives the same array, flatten the same shape, avg_pool2d, upsample2d, chunk, fill_at_indices and add_at_indices the same entries, and none of them changes the array passed in.", "quantifier": "all arrays of any number of dimensions and all arguments", "why_tests_cant": "The test suite runs with one backend at a time and on fixed shapes; the differences are at the edges of the argument ranges.", "anchors": ["src/caustics/backend_obj.py: _pad_torch, _pad_jax, _flatten_torch, _flatten_jax, _avg_pool2d_*, _upsample2d_*, _chunk_*, _fill_at_indices_*, _add_at_indices_*"]}
{"id": "C87", "title": "vmap_n maps over exactly depth leading dimensions", "statement": "vmap_n(func, depth) applies func at every index of the first depth axes and to nothing else, and puts each result at that index; depth < 1, or an argument with fewer axes, raises.", "quantifier": "all functions, all depths, all argument shapes", "why_tests_cant": "Nesting depth is unbounded; tests fix one.", "anchors": ["src/caustics/utils.py: vmap_n"]}
{"id": "C88", "title": "Convergence of halo lenses is the projection of the halo's density", "statement": "Without softening, the convergence of NFW and TNFW times the critical surface density is the line-of-sight integral of the 3-D density rho_s/(x(1+x)^2), truncated by t^2/(t^2+x^2) for TNFW, with the scale density and radii the lens itself reports; within the 1% window where TNFW switches to a series, up to 3e-5 of M0/(2 pi Rs^2) (for NFW the 1e-6 window is excluded). For interpret_m_total_mass=False those scales describe a halo of the given mass at 200 times the critical density, and as tau grows the TNFW convergence tends to that of NFW.", "quantifier": "all cosmologies with positive distances, redshifts, masses, concentrations, scale radii, truncations and positions off the centre", "why_tests_cant": "An improper integral identity over a continuum of parameters; tests compare with other closed forms.", "anchors": ["src/caustics/lenses/func/nfw.py: convergence_nfw, scale_radius_nfw, scale_density_nfw", "src/caustics/lenses/func/tnfw.py: convergence_tnfw, scale_density_tnfw, concentration_tnfw, M0_scalemass_tnfw, M0_totmass_tnfw"]}
{"id": "C89", "title": "PixelatedConvergence: periodic padding is periodic", "statement": "With padding \"circular\" or \"tile\" the lens represents a periodic mass distribution: moving the convergence map cyclically by whole pixels moves the deflection and potential maps cyclically by the same amount.", "quantifier": "all map sizes, maps, displacements, pixels, window sizes", "why_tests_cant": "Unbounded map sizes; whether it holds depends on the size through the transform length.", "anchors": ["src/caustics/lenses/func/pixelated_convergence.py: _fft2_padded, _fft_size, _unpad_fft, build_window_pixelated_convergence", "src/caustics/lenses/pixelated_convergence.py: PixelatedConvergence.__init__"]}
{"id": "C90", "title": "PixelatedConvergence: convolution_mode can be changed after construction", "statement": "Assigning convolution_mode gives the lens that would have been built with that mode; changing it back restores the lens; a mode other than fft and conv2d raises ValueError.", "quantifier": "all map sizes, paddings, windows and modes", "why_tests_cant": "Depends on the history of the object, on every padding and on every map.", "anchors": ["src/caustics/lenses/pixelated_convergence.py: convolution_mode setter, PixelatedConvergence.__init__"]}
{"id": "C91", "title": "PixelatedConvergence.convergence reproduces its map", "statement": "convergence returns scale times the map at pixel centres, values between those of the surrounding pixels inside the outermost pixel centres, and 0 outside the field of view, whatever the padding and the mode.", "quantifier": "all map sizes, maps, scales, centres, pixel scales, positions", "why_tests_cant": "Unbounded map sizes and a continuum of positions.", "anchors": ["src/caustics/lenses/pixelated_convergence.py: PixelatedConvergence.convergence"]}
{"id": "C92", "title": "Re is the half-light radius of a Sersic profile", "statement": "Half of the light of a Sersic source lies inside the ellipse of elliptical radius Re, for both formulas for k.", "quantifier": "all Sersic indices in the valid range, all centres, axis ratios, orientations, radii and amplitudes", "why_tests_cant": "An improper two-dimensional integral over a continuum of parameters; a slightly wrong k changes all values smoothly.", "anchors": ["src/caustics/light/func/sersic.py: k_sersic, k_lenstronomy, brightness_sersic", "src/caustics/light/sersic.py: Sersic.brightness"]}
{"id": "C93", "title": "The finite-difference Jacobian approximates the automatic one to second order", "statement": "On a meshgrid, jacobian_deflection_angle and jacobian_lens_equation with method 'finitediff' differ from method 'autograd' by at most M3 h^2/6 in each entry whose axis has neighbours on both sides, and by at most M2 h/2 on the border, where h is the pixelscale and M2, M3 bound the second and third derivatives of the deflection along the pixel's row and column.", "quantifier": "all deflection fields that are three times differentiable near a pixel, all grid sizes from 2 by 2, all pixelscales, all pixels", "why_tests_cant": "The error bound is about all smooth deflection fields and all resolutions; the library's own test accepts a large error on 30 percent of the pixels of one lens.", "anchors": ["src/caustics/lenses/base.py: jacobian_deflection_angle, jacobian_lens_equation", "src/caustics/utils.py: meshgrid"]}
{"id": "C94", "title": "Moving and turning a lens or source carries everything along", "statement": "If the centre of a lens or light profile is moved by a rigid motion of the sky and its position angle is increased by the angle of the motion, then potential, convergence and brightness take the same values at the moved points, and the deflection at a moved point is the turned deflection; at every point other than the centre of the lens.", "quantifier": "all rigid motions, all parameters, all points, each of MassSheet, ExternalShear, SIS, Point, SIE, EPL, Multipole, PseudoJaffe, NFW, TNFW, EnclosedMass, Sersic, StarSource", "why_tests_cant": "A three-parameter group of motions acting on a continuum of points and parameters; a wrong sign in one frame change shows only for a generic angle and offset.", "anchors": ["src/caustics/lenses/func/*.py", "src/caustics/light/func/*.py", "src/caustics/utils.py: translate_rotate, derotate"]}
{"id": "C95", "title": "Automatic differentiation of the lens models returns the derivative", "statement": "Forward-mode automatic differentiation (the rules of torch applied operation by operation to the formula the library evaluates) gives, for the deflection, potential and convergence of every analytic lens and for the brightness of Sersic, finite tangents equal to the true directional derivative with respect to position and every parameter, at every point off the centre and off the values where a branch of the formula changes; jacfwd over the position is the matrix of partial derivatives.", "quantifier": "all positions off the centre, all parameters in range, all directions of differentiation, each of MassSheet, ExternalShear, SIS, Point, SIE, PseudoJaffe, NFW, TNFW, Multipole, EPL (any number of series terms and chunk size), Sersic", "why_tests_cant": "A gradient test compares finitely many points against finite differences; torch.where, clamp, remainder and abs make the traced formula branch-dependent and a masked branch can still poison the tangent with NaN at special points.", "anchors": ["src/caustics/backend_obj.py: jacfwd", "src/caustics/lenses/func/*.py", "src/caustics/light/func/sersic.py"]}
{"id": "C96", "title": "Softening removes the singularity at the centre of a lens", "statement": "With a positive softening length the deflection of a lens at its own centre is zero and the Jacobian, shear, convergence and magnification obtained from it by automatic differentiation are finite and correct there.", "quantifier": "all positive softenings and parameters, each of SIS, Point, SIE, EPL, PseudoJaffe, NFW, TNFW", "why_tests_cant": "The offending point is one point of the plane; a test grid of even size never samples it, yet a ray through the centre of a lens is what an image plane with an odd number of pixels produces.", "anchors": ["src/caustics/lenses/nfw.py: s", "src/caustics/lenses/tnfw.py: s", "src/caustics/lenses/sis.py: s", "src/caustics/lenses/point.py: s", "src/caustics/lenses/pseudo_jaffe.py: s", "src/caustics/backend_obj.py: jacfwd"]}
{"id": "C97", "title": "Backpropagation through the lens models returns the gradient", "statement": "Reverse-mode automatic differentiation (loss.backward(), or backend.grad as used for the deflection of a lens that only has a potential) gives, for deflection, potential and convergence of every analytic lens and for the brightness of Sersic, finite gradients whose entries are the partial derivatives with respect to position and parameters, at every point off the centre and off the values where a branch of the formula changes; branches that are not selected never poison the gradient.", "quantifier": "all positions off the centre, all parameters in range, all sets of arguments that require a gradient, each of MassSheet, ExternalShear, SIS, Point, SIE, PseudoJaffe, NFW, TNFW, Multipole, EPL (any number of series terms and chunk size), Sersic", "why_tests_cant": "A masked branch of torch.where multiplies a zero by the derivative of the branch that was not taken; a single out-of-domain root or arccosh anywhere in the plane makes the whole gradient NaN, and only for some parameters.", "anchors": ["src/caustics/backend_obj.py: grad", "src/caustics/lenses/base.py: ThinLens.reduced_deflection_angle", "src/caustics/lenses/func/*.py", "src/caustics/light/func/sersic.py"]}
{"id": "C98", "title": "Rein is the Einstein radius", "statement": "The parameter Rein of SIS, SIE and EPL is an Einstein radius independent of the shape: the mean convergence inside the isodensity ellipse that has the area pi Rein^2 is exactly one, for every axis ratio, position angle and slope; inside the ellipse scaled by l the mass is pi Rein^2 l^(2-t) (l for the isothermal lenses).", "quantifier": "all centres, axis ratios q > 0, position angles, Rein > 0, slopes 0 < t < 2 and scale factors l > 0", "why_tests_cant": "The statement is about the integral of a singular density over a region for every shape; numerical checks integrate a grid for a few parameters and cannot tell the intermediate-axis normalisation from a major-axis one near q = 1.", "anchors": ["src/caustics/lenses/epl.py: EPL.convergence", "src/caustics/lenses/sie.py: SIE.convergence", "src/caustics/lenses/sis.py: SIS.convergence"]}
{"id": "C99", "title": "Shear, convergence and magnification of one lens fit together", "statement": "At every point off the centre the shear the library reports for a circular lens (SIS, Point, PseudoJaffe, NFW, TNFW) is tangential with strength mean convergence minus convergence; for the isothermal lenses (SIS, SIE without core) the shear is as strong as the convergence and the magnification is 1/|1 - 2 kappa|; and at a minimum of the arrival time (convergence below one, shear below 1 - kappa) of any lens with non-negative convergence the magnification is at least one.", "quantifier": "all positions off the centre (for NFW and TNFW outside the narrow annulus where their formulas switch), all parameters, all shapes of query arrays", "why_tests_cant": "convergence, shear and magnification are computed along three different code paths (closed form, autograd of the deflection, autograd of the ray map); tests compare each with another library on a grid, not with each other everywhere.", "anchors": ["src/caustics/lenses/base.py: ThinLens.shear, Lens.magnification", "src/caustics/lenses/func/base.py: magnification", "src/caustics/lenses/func/*.py"]}
{"id": "C100", "title": "An almost round SIE is an SIS", "statement": "As q approaches 1 the SIE becomes the SIS of the same Rein, uniformly over the plane: for 1/2 <= q < 1 the deflections differ by at most 12 Rein (1-q) in length and the potentials by 12 Rein (1-q) r. At q = 1 the convergence is exactly that of the SIS, and deflection and potential, which the library evaluates at q - 1e-6 to avoid 0/0, are off by at most 1.2e-5 Rein (times r), for every position angle.", "quantifier": "all positions off the centre, all position angles, Rein >= 0, axis ratios in [1/2, 1]", "why_tests_cant": "The formula is 0/0 at q = 1 and suffers cancellation near it; the existing tests compare single axis ratios on a grid with a tolerance, which cannot bound the error over the plane or as q tends to 1.", "anchors": ["src/caustics/lenses/func/sie.py: reduced_deflection_angle_sie, potential_sie, convergence_sie", "src/caustics/lenses/func/sis.py"]}
{"id": "C101", "title": "The EPL series converges to a consistent lens at a known rate", "statement": "The EPL deflection is a truncated series. As n_iter grows it converges to the deflection of an exact elliptical power law: one that is the gradient of a potential, is curl free, and whose half divergence is the convergence the library returns. With n terms the error is at most 2 kappa r/((2-t) q) times ((1-q)/(1+q))^n. For t = 1 the limit is the SIE, and the error is at most Rein/sqrt(q) ((1-q)/(1+q))^n/(2n+1) everywhere in the plane.", "quantifier": "all positions off the centre, 0 < q <= 1 (q < 1 for t = 1), 0 < t < 2, Rein > 0, every n_iter >= 1, chunk sizes for which the series is summed as one chunk or term by term", "why_tests_cant": "Tests compare a single n_iter with a reference lens within a tolerance at a few points. Convergence as n_iter grows, a uniform rate, and that the limit is itself a consistent lens are statements about all n_iter and all positions.", "anchors": ["src/caustics/lenses/func/epl.py: reduced_deflection_angle_epl, convergence_epl, _r_omega", "src/caustics/lenses/epl.py: n_iter", "src/caustics/lenses/func/sie.py"]}
{"id": "C102", "title": "From outside, a halo of finite mass is a point mass", "statement": "At every distance the deflection of PseudoJaffe and TNFW (no softening) is that of a Point lens whose Einstein radius is mass_to_rein of the lens's own mass_enclosed_2d at that distance. Far away it is that of a Point lens of the mass parameter (for TNFW with interpret_m_total_mass), up to corrections that fall off faster than 1/r, and the potential tends to that of the Point lens up to a constant, which is zero for PseudoJaffe.", "quantifier": "all cosmologies with positive distances, all redshifts, masses >= 0, scale radii, truncations and positions off the centre (TNFW at finite distance: where the enclosed mass is not negative)", "why_tests_cant": "It relates separate formulas, enclosed mass, deflection, potential and the Einstein radius of another class, at all positions and in the limit of infinite distance, with all unit conversions.", "anchors": ["src/caustics/lenses/func/pseudo_jaffe.py", "src/caustics/lenses/func/tnfw.py", "src/caustics/lenses/func/point.py: mass_to_rein_point, reduced_deflection_angle_point, potential_point"]}
{"id": "C103", "title": "Time delays take their textbook values", "statement": "For a source at distance b from an SIS the inner image lags the outer by D_dt/c 2 Rein b; for a Point lens by D_dt/c (b w/2 + Rein^2 ln((w+b)/(w-b))), w = sqrt(b^2+4 Rein^2); in days, for angles in arcsec. For an isothermal lens of any axis ratio and orientation the delay between two images of one source depends on their distances from the lens only: D_dt/c (r1^2 - r2^2)/2. For EPL of any slope t the delay is determined by image and source position.", "quantifier": "all cosmologies, redshifts, lens positions, Einstein radii, axis ratios, angles, source and image positions", "why_tests_cant": "The relations hold between image positions that solve the lens equation, over a continuum of lenses and sources; a numeric test can sample a few and cannot tell a wrong unit or factor in both terms from rounding.", "anchors": ["src/caustics/lenses/base.py: ThinLens.time_delay, _arcsec2_to_days", "src/caustics/lenses/func/base.py: time_delay_arcsec2_to_days", "src/caustics/lenses/func/sis.py", "src/caustics/lenses/func/sie.py", "src/caustics/lenses/func/point.py", "src/caustics/lenses/func/epl.py"]}
{"id": "C104", "title": "The unit of angle does not matter", "statement": "If every angle given to a lens (positions, centre, Einstein and core radii, scale radii, multipole amplitudes, pixelscale) is multiplied by l > 0, and masses by l^2, then the deflection is multiplied by l, the convergence is unchanged and the potential is multiplied by l^2 up to a constant; Sersic brightness is unchanged; images map to images and magnifications are unchanged.", "quantifier": "all l > 0, all parameters in their valid range, all positions off the centre, all convolution modes and paddings, all EPL chunk sizes", "why_tests_cant": "It relates two lenses at a continuum of scale factors; tests fix one unit. A dimensionally wrong term hides at any fixed parameter value.", "anchors": ["src/caustics/lenses/func/sis.py", "src/caustics/lenses/func/point.py", "src/caustics/lenses/func/sie.py: potential_sie", "src/caustics/lenses/func/epl.py", "src/caustics/lenses/func/multipole.py", "src/caustics/lenses/func/pseudo_jaffe.py: convergence_pseudo_jaffe", "src/caustics/lenses/func/tnfw.py", "src/caustics/lenses/func/pixelated_convergence.py", "src/caustics/light/func/sersic.py"]}
{"id": "C105", "title": "Convergence is positive and falls with the distance from the centre", "statement": "The convergence of SIS, PseudoJaffe, NFW and TNFW lenses is positive and strictly smaller at a larger distance from the centre; the convergence of SIE and EPL lenses is positive and strictly smaller further out on every ray from the centre.", "quantifier": "all valid parameters including softening, all pairs of positions, both meanings of the TNFW mass", "why_tests_cant": "It orders the values at every pair of positions; the violations sit within one part in a million (NFW) or at one point (TNFW) of a continuum.", "anchors": ["src/caustics/lenses/func/sis.py: convergence_sis", "src/caustics/lenses/func/sie.py: convergence_sie", "src/caustics/lenses/func/epl.py: convergence_epl", "src/caustics/lenses/func/pseudo_jaffe.py: convergence_pseudo_jaffe", "src/caustics/lenses/func/nfw.py: convergence_nfw, _f_differentiable_nfw", "src/caustics/lenses/func/tnfw.py: convergence_tnfw, _F_tnfw"]}
{"id": "C106", "title": "Mirror images and symmetries", "statement": "Mirroring a lens or source in the x axis (ordinate of the centre, position angles and gamma_2 change sign) mirrors its deflection and leaves potential, convergence and brightness unchanged at mirrored positions. Hence SIE, EPL and Sersic are symmetric about their position angle, and a multipole of order m is symmetric about phi_m and under a turn by 2 pi / m about its centre.", "quantifier": "all parameters in their valid range, all positions off the centre, all EPL chunk sizes and iteration counts (errors included)", "why_tests_cant": "It relates the answers of two lenses at a continuum of positions and parameters; a sign error in a branch of arctan2 or in one chunk of a series breaks it only somewhere.", "anchors": ["src/caustics/utils.py: translate_rotate, derotate", "src/caustics/lenses/func/sie.py", "src/caustics/lenses/func/epl.py", "src/caustics/lenses/func/multipole.py", "src/caustics/lenses/func/tnfw.py", "src/caustics/light/func/sersic.py"]}
{"id": "C107", "title": "Simulated pixels integrate the scene", "statement": "Without a PSF, every pixel of a LensSource image of a scene (lensed source plus lens light) that is a polynomial of degree below twice the quad_level in each coordinate is the exact mean brightness over that pixel, whatever upsample_factor, chunk size and mode, and the pixels times the pixel area add up to the flux in the field of view. For any scene continuous on a pixel the pixel value tends to that mean as upsample_factor grows, and if the slope of the scene is at most L the error is at most 2 L pixelscale / upsample_factor.", "quantifier": "all scenes, pixel scales, field shapes, image centres, upsampling factors, quadrature levels, chunk sizes", "why_tests_cant": "It compares a finite sum with an integral for every scene and states a limit in upsample_factor; a shifted or rescaled sub-pixel grid passes on symmetric examples.", "anchors": ["src/caustics/sims/lens_source.py: LensSource.forward, _build_grid", "src/caustics/utils.py: meshgrid, gaussian_quadrature_grid, gaussian_quadrature_integrator, quad"]}
{"id": "C108", "title": "The Hubble constant sets scales only", "statement": "Multiplying h0 by k in FlatLambdaCDM divides all distances and the time-delay distance by k and multiplies the critical surface density by k. Lenses given in angles deflect as before and their time delays are divided by k; multi-plane rays are unchanged for any list of lenses, and multi-plane delays are divided by k. Point, PseudoJaffe, NFW and TNFW lenses with their mass divided by k (and, for NFW and TNFW, critical_density_0 multiplied by k^2, which the library leaves to the user) have unchanged deflection, potential and convergence.", "quantifier": "all k > 0, redshifts, lens lists, lens parameters, positions, and all cosmologies whose distances differ by a factor", "why_tests_cant": "A degeneracy between parameters over their whole range; a missing or extra distance factor in one method shows only when h0 is varied with everything else held.", "anchors": ["src/caustics/cosmology/FlatLambdaCDM.py", "src/caustics/cosmology/base.py", "src/caustics/lenses/base.py: time_delay, surface_density", "src/caustics/lenses/multiplane.py", "src/caustics/lenses/func/nfw.py", "src/caustics/lenses/func/tnfw.py", "src/caustics/lenses/func/pseudo_jaffe.py", "src/caustics/lenses/func/point.py"]}
{"id": "C109", "title": "LensSource: what the PSF does to an image", "statement": "Multiplying the PSF by a non-zero number changes nothing. A PSF with light in one pixel only displaces the field by the distance of that pixel from the middle pixel, and does nothing if it is the middle pixel. A PSF without negative entries never takes a pixel below the minimum or above the maximum of the scene, also at the edges of the field. The PSF p + q gives the mean of the images for p and for q weighted with their sums. A PSF conserves the total flux of a scene that is dark within half a PSF of the edges. (The last four in conv2d mode for every field and PSF shape, and in fft mode for square fields and PSFs of equal half widths; C66 has the rest.)", "quantifier": "all scenes, lenses, switches, PSFs with non-zero sum, field and PSF shapes odd or even, upsampling factors, quadrature levels, chunk sizes, pixel scales and offsets", "why_tests_cant": "Unbounded shapes and arbitrary PSFs and scenes; edges and even PSF sizes are where a test image misses an offset by one.", "anchors": ["src/caustics/sims/lens_source.py: LensSource.__call__, _fft2_padded, _unpad_fft, _build_grid"]}
{"id": "C110", "title": "The image search ends at the image", "statement": "Refining image positions with forward_raytrace's root finder returns one position per guess and never one that maps further from the source than its guess did; a guess that already is an image is returned unchanged whatever the other guesses are. If the lens is affine in the field (a mass sheet with shear, say) every guess, from any distance, ends within about 1e-4 arcsec of the image (sqrt 2 * 1e-4 * (1 + 1/(11 a^2)) where a is the smallest factor by which the lens changes distances), and forward_raytrace as users call it returns exactly one position, that close to the image.", "quantifier": "all lenses (first two statements), all invertible affine lenses, source positions, guesses and numbers of guesses, fields of view, grid sizes, tolerances epsilon large compared with the distance above, and depths that reach triangles smaller than epsilon^2", "why_tests_cant": "Convergence from every guess and for every lens is a statement about infinitely many optimisations; tests check a few sources behind one lens.", "anchors": ["src/caustics/lenses/func/base.py: forward_raytrace, forward_raytrace_rootfind", "src/caustics/utils.py: batch_lm", "src/caustics/lenses/base.py: Lens.forward_raytrace"]}
{"id": "C111", "title": "Automatic differentiation of pixelated lenses and sources", "statement": "Differentiating the deflection of PixelatedDeflection or the brightness of Pixelated or PixelatedTime, forward or backward, with respect to the query position, the centre, the pixel scale, the scale factor and every entry of the map gives finite numbers equal to the true derivatives wherever the interpolated map is smooth, that is off the lines through the centres of inner pixels and off the border; with respect to the map and the scale factor it does so everywhere, in every padding mode. On the centre of a pixel the Jacobian of the deflection is finite and equals the forward differences of the map.", "quantifier": "all map sizes, entries, positions, centres, nonzero pixel scales and times, all directions and sets of differentiated arguments, every padding mode", "why_tests_cant": "Integer indexing, clamping and masking hide from the gradient; a test compares a few points with finite differences and cannot tell that no cell, border or padding mode drops a term.", "anchors": ["src/caustics/utils.py: interp2d, interp3d", "src/caustics/lenses/pixelated_deflection.py", "src/caustics/light/pixelated.py", "src/caustics/light/pixelated_time.py"]}
{"id": "C112", "title": "Mass behind the source does not bend its light", "statement": "A lens whose redshift is that of the source, or larger, leaves the light of the source unbent: its deflection is zero, its convergence is zero, and adding such a plane to a multiplane lens changes nothing.", "quantifier": "all cosmologies with growing distances, all redshifts of lens and source, all halo parameters, all positions, all lists of planes sorted by redshift", "why_tests_cant": "Tests put the lens in front of the source; the order of two redshifts is a condition on every pair, and the sampled source redshift of a fit can pass any plane.", "anchors": ["src/caustics/cosmology/base.py: critical_surface_density, angular_diameter_distance_z1z2", "src/caustics/lenses/base.py: ThinLens.raytrace", "src/caustics/lenses/multiplane.py: raytrace", "src/caustics/lenses/pseudo_jaffe.py", "src/caustics/lenses/nfw.py", "src/caustics/lenses/tnfw.py"]}
{"id": "C113", "title": "Halo models are limits of one another", "statement": "As its truncation radius grows (interpret_m_total_mass=False) a TNFW lens becomes the NFW lens of the same mass and of the concentration TNFW reports: potential, deflection (no softening) and convergence tend to those of NFW at every position outside the window around the scale radius in which TNFW uses a series. A PseudoJaffe lens of small core radius Rc and large transition radius Rs is an SIS: deflection and convergence differ by at most an explicit multiple of Rein that vanishes with Rc/r and r/Rs.", "quantifier": "all cosmologies with positive distances, all masses, radii, centres, softenings >= 0 (potential and convergence) and positions off the centre and the window", "why_tests_cant": "A limit is a statement about infinitely many lenses; a test compares one large truncation radius with a tolerance that hides a wrong constant.", "anchors": ["src/caustics/lenses/func/tnfw.py", "src/caustics/lenses/tnfw.py", "src/caustics/lenses/func/nfw.py", "src/caustics/lenses/nfw.py", "src/caustics/lenses/func/pseudo_jaffe.py", "src/caustics/lenses/func/sis.py"]}
{"id": "C114", "title": "Derivatives of a simulated image are exact", "statement": "The image that LensSource returns is differentiated exactly, forward (jvp/jacfwd) and backward (grad), with respect to any parameter of the lens, the source and the lens light, the position of the image and any pixel of the PSF: if the light at every sample position is differentiated exactly then so is every pixel, through chunked vmap, quadrature, lens light, PSF convolution by FFT or conv2d (the normalisation of the PSF included), cropping and downsampling. For an SIE with a Sersic source and Sersic lens light it is enough that no sample lies at the centre of the unsoftened lens or of the lens light and no ray ends at the centre of the source. If a sample does lie exactly at the centre of the lens light (for example an odd number of pixels, light at the origin) then, softened or not, the derivative with respect to the position of that light is NaN: of every pixel if a PSF is applied by FFT, of the one pixel without PSF.", "quantifier": "all lenses and lights with exactly differentiated samples, all settings of the simulator, PSFs of non-zero sum, all parameter values and all choices of differentiated arguments", "why_tests_cant": "A finite-difference check tests a few pixels, parameters and settings with a tolerance; it cannot exclude a detached term for other settings or exclude the exceptional positions.", "anchors": ["src/caustics/sims/lens_source.py", "src/caustics/light/func/sersic.py", "src/caustics/light/sersic.py", "src/caustics/lenses/func/sie.py", "src/caustics/utils.py", "src/caustics/backend_obj.py"]}
{"id": "C115", "title": "A small softening only matters near the centre", "statement": "At a distance r from the centre the softening length s of a lens changes what it returns by an amount that vanishes with s: for SIS the deflection by at most Rein s/r, the potential by at most Rein s and the convergence by at most Rein s/(2 r^2); for Point the deflection by at most 2 Rein^2 s/r^2 and the potential by at most Rein^2 s/r; for SIE with axis ratio q the deflection by at most Rein (1+q) q^(-3/2) s/r (3 Rein s/r for q=1) and the convergence by at most Rein s^2/(4 sqrt(q) r^3), in the limit also the potential; EPL convergence in the limit; a softened NFW or TNFW halo has exactly the potential and convergence of the unsoftened one a distance s further out on the same ray (TNFW also the deflection, NFW the deflection times r/(r+s)), so that these too tend to the unsoftened values outside the windows around the scale radius.", "quantifier": "all positions off the centre, all softenings s >= 0, all parameters", "why_tests_cant": "Tests use one softening and a tolerance; the bound has to hold at every distance, axis ratio and softening.", "anchors": ["src/caustics/lenses/func/sis.py", "src/caustics/lenses/func/point.py", "src/caustics/lenses/func/sie.py", "src/caustics/lenses/func/epl.py", "src/caustics/lenses/func/nfw.py", "src/caustics/lenses/func/tnfw.py"]}
{"id": "C116", "title": "A pixelated convergence is differentiated exactly through its convolution", "statement": "Deflection, potential and convergence of PixelatedConvergence are differentiated exactly, forward and backward, with respect to position, centre, scale and every pixel of the map, for every size, padding and convolution mode that returns a value, unless position or centre is differentiated and the position lies exactly on a line through the points of the tabulated grid (n points a side by FFT, 2n by conv2d) or on the border of the field. The gradient with respect to a pixel of the map is the deflection (potential) of that pixel alone, at any position if only the map is differentiated; the gradient with respect to the scale is the deflection at scale one.", "quantifier": "all instances, maps, positions, centres, scales and choices of differentiated arguments", "why_tests_cant": "A finite-difference check tests a few pixels of one map; it cannot exclude that for another size, padding or mode a pixel has no or a wrong influence on the gradient.", "anchors": ["src/caustics/lenses/pixelated_convergence.py", "src/caustics/lenses/func/pixelated_convergence.py", "src/caustics/utils.py", "src/caustics/backend_obj.py"]}
{"id": "C117", "title": "forward_raytrace reports every image in its field of view", "statement": "Every position inside the searched field that is ray-traced exactly onto the source is reported by forward_raytrace, to within its tolerance, at the default settings and at any other number of divisions, depth and tolerance.", "quantifier": "all lenses, sources, fields, divisions, depths and tolerances", "why_tests_cant": "The tests count images of a few hand-picked lenses and sources; whether an image is caught depends on where it falls with respect to the grid, for a continuum of sources.", "anchors": ["src/caustics/lenses/base.py", "src/caustics/lenses/func/base.py", "src/caustics/lenses/func/point.py", "src/caustics/utils.py"]}
{"id": "C118", "title": "A microlensing light curve is differentiated exactly", "statement": "The flux that Microlens returns, and its error estimate wherever that is not zero, are differentiated exactly, forward and backward, with respect to any parameter of the lens and of the source: the derivative is that of the returned number with the same draws. It suffices that the light at each sample is differentiated exactly; for an isothermal ellipsoid in front of a Sersic source it is enough that no sample lies at the centre of the unsoftened lens and no ray ends at the centre of the source.", "quantifier": "all lenses, sources, draws, fields of view, numbers of samples, both methods, and all choices of differentiated parameters", "why_tests_cant": "A finite-difference check compares one derivative for one seed; it cannot exclude that for another number of samples, method or parameter a sample is left out of the gradient or the gradient is that of a different estimate.", "anchors": ["src/caustics/sims/microlens.py", "src/caustics/backend_obj.py"]}
{"id": "C119", "title": "Weak lenses on several planes add up", "statement": "Tracing a ray through Multiplane gives the position that SinglePlane gives for the same lenses, up to one small term for every pair of lenses: at most the deflection of the nearer lens times the rate at which the deflection of the farther one changes. When all lenses are made weaker by a factor eps the difference therefore falls like eps squared. For two mass sheets the difference is exactly k1 k2 times the ratio (1 - D1/D2)/(1 - D1/Ds).", "quantifier": "all lists of lenses by increasing redshift, all positions, all cosmologies in which distances grow (FlatLambdaCDM inside its table included), all strengths", "why_tests_cant": "A test compares the two lens systems for a few lenses and a tolerance chosen by hand; it cannot say how large the coupling between planes may be for every lens, number of planes and cosmology, nor that it is of second order.", "anchors": ["src/caustics/lenses/multiplane.py", "src/caustics/lenses/singleplane.py", "src/caustics/cosmology/FlatLambdaCDM.py"]}
{"id": "C120", "title": "A pixelated map approximates the scene it samples", "statement": "Filling a PixelatedDeflection, Pixelated, PixelatedTime or PixelatedConvergence map with the values of a smooth function at the pixel centres gives back that function between the pixels: the error is at most 1/8 pixelscale^2 (Mx+My) between the outermost pixel centres (Mx, My bounding the second derivatives along the axes; PixelatedTime adds 1/8 dt^2 Mt), a bound that is attained, and at most 3/8 pixelscale^2 (2 Mx+My) in the outer half pixel, where the map is extrapolated. The Jacobian of a PixelatedDeflection is within K pixelscale of the true one away from the pixel centres' rows and columns. More pixels on the same field bring the deflection as close as wanted to the lens it samples, uniformly over the field.", "quantifier": "all smooth functions, map shapes of at least 2 by 2 pixels, pixel scales, centres, scales, padding modes and positions in the field", "why_tests_cant": "Tests compare a map with one analytic lens at a few positions with a loose tolerance; they cannot bound the error for every function and position nor its order in the pixel size.", "anchors": ["src/caustics/lenses/pixelated_deflection.py", "src/caustics/light/pixelated.py", "src/caustics/light/pixelated_time.py", "src/caustics/lenses/pixelated_convergence.py", "src/caustics/utils.py: interp2d, interp3d"]}
{"id": "C121", "title": "The farther the source, the stronger the lens", "statement": "Keeping a lens and moving the source from z1 back to z2 > z1 makes it stronger: the reduced deflection of a given physical deflection grows in length, in the same direction, and stays shorter than the physical deflection; critical_surface_density and time_delay_distance fall and stay positive; the deflection, potential and convergence of an NFW, TNFW or PseudoJaffe halo are multiplied everywhere by one factor above 1; and the Einstein radii that Point and SIE derive from a mass or a velocity dispersion grow. This holds in FlatLambdaCDM for all 0 < z_l < z1 < z2 inside its distance table.", "quantifier": "all cosmologies in which the lens and the two sources are in order of comoving distance, all halo parameters, positions and physical deflections", "why_tests_cant": "Tests evaluate lenses at one or two source redshifts; an inverted distance ratio gives plausible numbers at any single redshift.", "anchors": ["src/caustics/cosmology/base.py", "src/caustics/cosmology/FlatLambdaCDM.py", "src/caustics/lenses/func/base.py: reduced_from_physical_deflection_angle", "src/caustics/lenses/func/point.py: mass_to_rein_point", "src/caustics/lenses/func/sie.py: sigma_v_to_rein_sie", "src/caustics/lenses/nfw.py", "src/caustics/lenses/tnfw.py", "src/caustics/lenses/pseudo_jaffe.py"]}
{"id": "C122", "title": "Derivatives pass through SinglePlane and Multiplane", "statement": "If the deflections (and potentials) of some lenses and the distances can be differentiated exactly with torch's forward or backward mode, then so can the deflection, potential and convergence of a SinglePlane of them, physical_deflection_angle and time_delay of each, and raytrace, effective_reduced_deflection_angle and time_delay of a Multiplane of them, with respect to anything: the position, any parameter of any lens, the distances. The ray must meet each lens where that lens can be differentiated; time_delay also needs distinct planes. In particular this holds for any list of mass sheets, shears, SIS, point masses and SIE at any redshifts, and torch.func.jacfwd of their raytrace or effective deflection is the matrix of the partial derivatives. Where Multiplane raises, it raises the same error while tracing.", "quantifier": "all lists of lenses, redshifts, distances, positions and parameter values, all directions of differentiation", "why_tests_cant": "Tests compare one Jacobian with finite differences at one point of one stack; they cannot cover every stack, parameter and ray.", "anchors": ["src/caustics/lenses/multiplane.py", "src/caustics/lenses/singleplane.py", "src/caustics/lenses/base.py: physical_deflection_angle, time_delay, jacobian_lens_equation"]}
{"id": "C123", "title": "Cosmological parameters can be inferred with gradients", "statement": "In FlatLambdaCDM the comoving distance, the distance between two redshifts, the angular diameter and time-delay distances, the critical surface density and the critical density are differentiated exactly by torch's forward and backward modes, with respect to redshifts, h0 and Om0; this includes the points where the interpolation passes from one cell of its table to the next. Consequently the rays and time delays of a Multiplane of mass sheets, shears, SIS, point masses and SIE have exact derivatives with respect to h0 and Om0 as well as position and lens parameters. The gradient is also that of the right function: its redshift component is c/H(z) and its h0 component minus distance over h0 to one part in 500, and its Om0 component that of the integral within an explicit bound of the same order, for Om0 and z inside the table short of its last cell.", "quantifier": "all redshifts and parameters inside the distance table, all lists of lenses, all directions of differentiation", "why_tests_cant": "Tests compare distances, not their derivatives, with astropy at a few redshifts; a derivative of an interpolated table can be wrong at its knots or off in between although the values agree.", "anchors": ["src/caustics/cosmology/FlatLambdaCDM.py", "src/caustics/cosmology/base.py", "src/caustics/utils.py: interp1d", "src/caustics/lenses/multiplane.py"]}
{"id": "C124", "title": "A whole scene can be moved, turned or mirrored", "statement": "Moving, turning or mirroring all parts of a system together carries every result along. Rays, time delays, physical deflection and surface density of a lens, everything a SinglePlane returns, and rays, effective deflection and time delays of a Multiplane move with the system (for Multiplane, turns and reflections about the origin for any list of lenses, shifts for lenses listed by redshift). The Jacobian turns with the lens, and magnification and the length of the shear stay the same. Shifting lens, source, lens light and the image centre x0, y0 by the same amount leaves a LensSource image unchanged. Mirroring the scene and the PSF mirrors the image, and exchanging the two axes of scene and PSF transposes it.", "quantifier": "all length-preserving maps and shifts, all lists of lenses, all cosmologies, all scenes, PSFs (odd size along a mirrored axis), field shapes, upsampling factors, symmetric quadrature rules, chunk sizes", "why_tests_cant": "Tests place lenses at one position and compare with stored images; a swapped axis, a sign in one of the two coordinates or an off-centre grid can hide in a symmetric set-up.", "anchors": ["src/caustics/lenses/multiplane.py", "src/caustics/lenses/singleplane.py", "src/caustics/lenses/base.py", "src/caustics/sims/lens_source.py"]}
{"id": "C125", "title": "The microlensing flux is right on average and its reported error is honest", "statement": "With method=\"mcmc\", the flux Microlens returns, averaged over the random draws, is exactly the integral of the lensed brightness over the field, for any number of samples. Its mean square error is a fixed number divided by N_mcmc. The reported error, squared and averaged, is that mean square error times 1 - 1/N_mcmc. With method=\"grid\", the flux differs from the integral by at most a slope bound times the field's width plus height times its area over N_grid, and tends to it for any continuous scene.", "quantifier": "all lenses and sources whose lensed brightness and its square are integrable over the field, all rectangular fields, all numbers of samples", "why_tests_cant": "A test sees one set of random numbers and a loose tolerance; a bias of a few per cent, a missing square root or a wrong area factor in the error passes.", "anchors": ["src/caustics/sims/microlens.py", "src/caustics/backend_obj.py"]}
{"id": "C126", "title": "Light that is focused arrives together", "statement": "time_delay obeys Fermat's principle along image positions. When the image position moves, the arrival time changes by minus the deflection times the change of the ray-traced source position, in the units of the time-delay distance. So two images of one source that can be joined by a path of images of that source have equal time delays. This holds for every ThinLens, for SinglePlane and for Multiplane.", "quantifier": "all lenses with consistent potential and deflection, all differentiable paths of image positions, all cosmologies", "why_tests_cant": "Tests compare time delays with stored numbers; the relation between the delay and the ray-traced position at all positions and along all paths cannot be sampled.", "anchors": ["src/caustics/lenses/base.py", "src/caustics/lenses/singleplane.py", "src/caustics/lenses/multiplane.py"]}
{"id": "C127", "title": "Halos are differentiated through the universe they are in", "statement": "NFW, TNFW (either meaning of its mass), PseudoJaffe and Multipole give exact derivatives of deflection, physical deflection, potential and convergence by torch's forward and backward modes, with respect to position, every parameter of the halo and whatever the distances and the critical density depend on, away from the centre and from the circles where the code changes formula. Consequently rays and time delays of a Multiplane made of such halos, mass sheets, shears, SIS, point masses and SIE, in a FlatLambdaCDM universe, have exact derivatives with respect to position, h0, Om0, the critical density and every lens parameter at once. The physical deflection NFW and TNFW compute themselves is the one the base class derives from the reduced one.", "quantifier": "all halos with positive parameters, all positions off the centre and off the switching circles, all lists of lenses at redshifts before the source, all parameters and directions of differentiation", "why_tests_cant": "Tests compare halo values with lenstronomy at fixed parameters; that a gradient is complete, with each of the several ways a cosmological parameter enters a halo accounted for once, concerns all parameters and combinations of lenses.", "anchors": ["src/caustics/lenses/nfw.py", "src/caustics/lenses/tnfw.py", "src/caustics/lenses/pseudo_jaffe.py", "src/caustics/lenses/multipole.py", "src/caustics/lenses/multiplane.py", "src/caustics/cosmology/FlatLambdaCDM.py"]}
{"id": "C128", "title": "Every source has an image, and the first to arrive is neither dimmed nor mirrored", "statement": "Put any number of mass sheets, external shears, SIS, SIE (with or without core) and point masses in one SinglePlane, with positive masses. As long as the convergences of the sheets and the strengths of the shears add up to less than one, every source position has at least one image, and among its images one has the least time_delay. At every image with the least time_delay, magnification is at least one (or infinite), and the Jacobian of the lens equation has positive parity. With a sheet of convergence one instead, no source off its centre has an image.", "quantifier": "all lists of lenses, all parameters in range, all source positions, all redshifts and distances", "why_tests_cant": "Tests find images of chosen sources behind chosen lenses. That an image exists, and that the first one is bright, is a statement about the global minimum of a surface over the whole plane, for every scene.", "anchors": ["src/caustics/lenses/base.py", "src/caustics/lenses/singleplane.py", "src/caustics/lenses/func/sie.py", "src/caustics/lenses/func/sis.py", "src/caustics/lenses/func/point.py", "src/caustics/lenses/func/mass_sheet.py", "src/caustics/lenses/func/external_shear.py"]}
{"id": "C129", "title": "A lens below the critical strength makes exactly one image, a lens above it several", "statement": "Put any number of mass sheets, external shears and cored SIEs in one SinglePlane. Call strength the sum of kappa for a sheet, sqrt(gamma_1^2+gamma_2^2) for a shear, and Rein / (sqrt(q) (1+q) s) for an SIE. While the strength is below one, every source has exactly one image; at every position of the image plane magnification is finite, at least 1 and at most 1/(1 - strength)^2, and the parity is positive. A single cored SIE whose strength exceeds one has three different images of a source behind its centre.", "quantifier": "all lists of lenses, all parameters in range, all source and image positions", "why_tests_cant": "Tests solve the lens equation for chosen sources with a root finder that may miss solutions. That there is no second image anywhere in the plane, for any source, needs a proof; so does the exact strength at which several images appear.", "anchors": ["src/caustics/lenses/base.py", "src/caustics/lenses/singleplane.py", "src/caustics/lenses/func/sie.py", "src/caustics/lenses/func/mass_sheet.py", "src/caustics/lenses/func/external_shear.py"]}
{"id": "C130", "title": "Several planes focus, shear and turn the light as multi-plane lensing says", "statement": "The Jacobian of Multiplane.raytrace is the matrix of the multi-plane recursion: each plane multiplies the matrix of the rays that reach it by its own convergence and shear at the place where the ray crosses it, weighted by the usual ratio of distances. For two planes effective_convergence_div is the sum of the two convergences minus the share w of the foreground times (kappa kappa' + gamma . gamma'), and effective_convergence_curl is w times (gamma_2 gamma_1' - gamma_1 gamma_2'). Any number of planes whose shears share one axis, and any number of lenses that are round about one line of sight, give effective_convergence_curl = 0.", "quantifier": "all lists of lenses in order of redshift, all lens models differentiable at the ray, all rays, all distance-redshift relations", "why_tests_cant": "Tests compare the Jacobian with finite differences for one system. The recursion holds for every number of planes and every lens model, and the rotation is a small second-order effect that numbers at chosen points do not separate from an error.", "anchors": ["src/caustics/lenses/multiplane.py", "src/caustics/lenses/base.py"]}
{"id": "C131", "title": "Every image lies within a known distance of its source, and a source far from the lenses has a single image", "statement": "Put any number of mass sheets, external shears, SIS, SIE and point-mass lenses in one SinglePlane, with summed kappa and shear strength below one. Each lens deflects by at most a known amount (Rein for an SIS, an explicit multiple of Rein for an SIE, Rein for a point mass outside its ring, kappa or the shear strength times the distance from source to centre). Every image of a source lies no further from the source than the sum of these amounts divided by one minus the summed kappa and shear strength, or inside the Einstein ring of a point mass. If the centres of all lenses are further from the source than that radius plus a distance d at which the summed Rein/d, Rein/(sqrt(q) d), (Rein/d)^2, kappa and shear stay below one, the source has at most one image outside the rings of the point masses, and exactly one if there are no point masses.", "quantifier": "all lists of lenses with parameters in range, all sources, all image positions, all d", "why_tests_cant": "The bound tells a user how wide a field forward_raytrace has to search so that no image is missed, and when one starting point is enough. Tests can only look at the images that a solver happened to find; absence of further images in the whole plane needs a proof.", "anchors": ["src/caustics/lenses/base.py", "src/caustics/lenses/singleplane.py", "src/caustics/lenses/func/sie.py", "src/caustics/lenses/func/sis.py", "src/caustics/lenses/func/point.py", "src/caustics/lenses/func/mass_sheet.py", "src/caustics/lenses/func/external_shear.py"]}
{"id": "C132", "title": "Weak lenses on several planes make exactly one image of every source", "statement": "Take a Multiplane of lenses in front of the source, each of which changes its reduced deflection by at most k_i times the displacement, and let g be the product of the (1 + k_i) less one. Two rays are bent apart by at most g times their separation in the image plane. If g is below one, every source position has exactly one image. This applies to planes that hold any number of mass sheets, shears and cored SIEs, where k_i is the summed strength of the plane (kappa, shear strength, Rein/(sqrt(q)(1+q)s)); for these the magnification is finite everywhere, lies between 1/(1+g)^2 and 1/(1-g)^2, and no image is mirrored. It holds in particular with the distances of FlatLambdaCDM.", "quantifier": "all numbers of planes, all lenses with the stated bound, all redshifts in order, all distance functions that grow, all sources and positions", "why_tests_cant": "Absence of a second image anywhere in the plane, for any source and any number of planes, is not observable by sampling, and root finders only return the images they find. The guarantee covers every combination of planes.", "anchors": ["src/caustics/lenses/multiplane.py", "src/caustics/lenses/singleplane.py", "src/caustics/lenses/base.py", "src/caustics/lenses/func/sie.py", "src/caustics/cosmology/FlatLambdaCDM.py"]}
{"id": "C133", "title": "An SIE without core makes at most four images, and exactly four of a source behind its centre", "statement": "For an SIE with axis ratio 0 < q <= 1, positive Einstein radius and no core, at any position and angle, no source position is reached by the rays through five different image positions off the lens centre. A source exactly behind the lens centre has exactly four images: two on the major axis at distance Rein sqrt(q)/f atan(f/q) and two on the minor axis at distance Rein sqrt(q)/f atanh(f), with f = sqrt(1 - q^2). Because q = 1 is moved by 1e-6, this is so for q = 1 as well, where a perfectly round lens would make a ring.", "quantifier": "all lens positions, angles, axis ratios in (0, 1], positive Einstein radii, sources, and all finite collections of image positions", "why_tests_cant": "An upper bound on the number of images over the whole plane cannot be seen by running a root finder, which only returns those it finds; and it has to hold for every source, including those on caustics.", "anchors": ["src/caustics/lenses/func/sie.py:67-81", "src/caustics/lenses/base.py", "src/caustics/lenses/func/base.py"]}
{"id": "C134", "title": "Round lenses: one Einstein ring, and exactly one image of every source outside it", "statement": "For a round lens (SIS and Point with any softening s >= 0, EPL with q = 1 and any slope 0 < t < 2, PseudoJaffe with any core and scale radius) with Einstein radius E: a source behind the centre is seen exactly on the circle of radius E (and at the centre). Any other source has exactly one image outside that circle; it lies beyond the source on the same ray from the centre, is magnified and not mirrored. All its further images are inside the circle, on the opposite side of the centre. E is Rein - s for SIS and Point, Rein for the EPL; if s >= Rein, or if a PseudoJaffe has a central convergence of at most one, there is no ring and every source has just this one image off the centre, and if the central convergence exceeds one there is a ring. An NFW halo whose scale convergence is at most 1/2 always has exactly one ring, inside its scale radius, however light it is.", "quantifier": "all lens positions and parameters in the stated ranges, all sources, all image positions off the centre", "why_tests_cant": "Uniqueness of the outer image and of the ring over the whole plane, for all parameters, cannot be sampled; the ring of a light NFW halo is exponentially small in its mass and never resolved by a grid.", "anchors": ["src/caustics/lenses/func/sis.py", "src/caustics/lenses/func/point.py", "src/caustics/lenses/func/epl.py", "src/caustics/lenses/func/pseudo_jaffe.py", "src/caustics/lenses/func/nfw.py:172-264", "src/caustics/lenses/nfw.py", "src/caustics/lenses/base.py", "src/caustics/lenses/utils.py"]}
{"id": "C135", "title": "How many images a round lens makes: the radial caustic", "statement": "For a source not exactly behind the centre of a round lens, counting image positions off the centre. SIS with a core 0 < s < Rein: exactly three images if the source is closer to the axis than (sqrt Rein - sqrt s)^2, exactly two on that circle, exactly one outside. SIS without a core: two images if closer than Rein, else one. With s >= Rein always exactly one. Point without a core: always exactly two; with a core 0 < s < Rein there is a circle with three images inside, two on it and one outside; with s >= Rein exactly one. Round EPL: for t < 1 three, two or one image with the circle at radius t/(1-t) Rein (1-t)^(1/t); for t = 1 two inside Rein and one outside; for t > 1 always exactly two. PseudoJaffe: exactly one image if the central convergence is at most one; otherwise there is a circle with three images inside, two on it and one outside.", "quantifier": "all lens positions and parameters in the stated ranges, all sources off the axis, all image positions off the centre", "why_tests_cant": "The number of solutions of the lens equation over the whole plane cannot be established by sampling; a numerical solver such as forward_raytrace can silently miss or duplicate images, so it gives no reference.", "anchors": ["src/caustics/lenses/func/sis.py", "src/caustics/lenses/func/point.py", "src/caustics/lenses/func/epl.py", "src/caustics/lenses/func/pseudo_jaffe.py", "src/caustics/lenses/base.py", "src/caustics/lenses/utils.py"]}
{"id": "C136", "title": "A field of N stars makes at most N^2+1 images of a source, at most (N+1)^2 in a shear", "statement": "A SinglePlane of N Point lenses (no softening) at different positions, together with any number of MassSheets and ExternalShears, shows a point source at finitely many positions (away from the stars): at most (N+1)^2 if N >= 1 and the total shear is not zero, at most N^2+1 if N >= 2 and it is zero - whatever the total convergence, also one. The bounds are reached: a star in an aligned shear 0 < |g| < 1 shows a source behind it at exactly four positions, and two equal stars closer than 2 sqrt 2 Einstein radii show a source half way between them at exactly five.", "quantifier": "all numbers, positions and masses of stars, all sheets and shears, all sources, all image positions", "why_tests_cant": "An upper bound on the number of solutions of the lens equation needs an argument about the whole plane; a numerical search can only ever find some of them.", "anchors": ["src/caustics/lenses/singleplane.py", "src/caustics/lenses/func/point.py", "src/caustics/lenses/func/external_shear.py", "src/caustics/lenses/func/mass_sheet.py", "src/caustics/lenses/base.py"]}
{"id": "C137", "title": "A pixel map adds no light or mass of its own: no negative values, and the total over the field is the sum of its pixels", "statement": "brightness(x, y) of a Pixelated source and convergence(x, y) of a PixelatedConvergence are nowhere negative if no pixel of the map (and no scale) is, and their integral over the field of the map is scale * pixelscale^2 * (sum of the pixels).", "quantifier": "all map sizes, maps, pixel scales, centres, scales and positions", "why_tests_cant": "An integral over the plane and a sign at every position; tests compare a few values at pixel centres, where the map is reproduced exactly.", "anchors": ["src/caustics/light/pixelated.py", "src/caustics/lenses/pixelated_convergence.py", "src/caustics/utils.py"]}
{"id": "C138", "title": "Jacobian, shear, effective convergence and magnification can be differentiated with respect to the parameters of a lens", "statement": "Differentiating jacobian_deflection_angle, jacobian_lens_equation, shear, effective_convergence_div/curl or magnification with respect to the position or any parameter of the lens gives the exact derivative of the value that the call returns, for both methods (autograd, finitediff).", "quantifier": "all lenses whose deflection is built from the modelled primitives, all parameters and directions, all positions where the deflection formula is smooth, all grids", "why_tests_cant": "A statement about derivatives of derivatives for every parameter and position; the tests look at values of the Jacobian only, which are right even where the gradient is lost.", "anchors": ["src/caustics/lenses/base.py", "src/caustics/lenses/utils.py", "src/caustics/backend_obj.py"]}
{"id": "C139", "title": "Magnification is the area of an image over the area of its source", "statement": "Take triangles of any shape that shrink to a position on the sky and trace their corners with raytrace. The area on the sky divided by the area of the traced triangle tends to the magnification reported there; where the reported magnification is infinite, the traced area vanishes faster. The traced triangle keeps its orientation where the determinant of jacobian_lens_equation is positive and is mirrored where it is negative. Under sheets and shears this is exact for triangles of every size.", "quantifier": "all deflections with a total derivative at the position (every lens whose potential, deflection and convergence are consistent there), all positions, all non-degenerate triangles", "why_tests_cant": "A limit over shrinking figures at every position of every lens; a test can only compare two numbers at a chosen position and size.", "anchors": ["src/caustics/lenses/utils.py", "src/caustics/lenses/base.py"]}
{"id": "C140", "title": "The light of a star, and how much a lens right in front of it amplifies it", "statement": "The total light of a StarSource is pi theta_s^2 Ie (1 - gamma/3). The flux Microlens returns for a uniform star (gamma = 0), averaged over its random draws, is pi theta_s^2 Ie without a lens, 1/(1-kappa)^2 times that behind a MassSheet with kappa < 1, sqrt(1 + 4 (Rein/theta_s)^2) times that right behind a Point lens, and 4 Rein/theta_s times that (or (1 + Rein/theta_s)^2 if theta_s > Rein) right behind an SIS, whenever the field holds all images.", "quantifier": "all star radii, intensities, limb darkening coefficients, positions, Einstein radii, convergences, fields of view and sample numbers", "why_tests_cant": "An integral over the plane, and an average over random draws; tests look at single values of the brightness or at one noisy flux.", "anchors": ["src/caustics/light/func/star_source.py", "src/caustics/light/star_source.py", "src/caustics/sims/microlens.py", "src/caustics/lenses/func/point.py", "src/caustics/lenses/func/sis.py"]}
{"id": "C141", "title": "Shapes, brightnesses and order of arrival of the images of an Einstein cross", "statement": "For an SIE with 0 < q < 1, no core and positive Einstein radius, jacobian_lens_equation leaves the direction to the lens centre unchanged and multiplies the direction across it by 1 - 2 kappa, at every position off the centre; images are mirrored exactly where kappa exceeds 1/2. Of the four images of a source behind the centre, the two on the major axis are nearer to the lens, mirrored, with magnification 1/(f/(q atan(f/q)) - 1); the two on the minor axis are farther out, upright, brighter than the source, with magnification 1/(1 - f/atanh f), where f = sqrt(1 - q^2). Opposite images have the same time delay; the nearer pair lags the farther one by D_dt/c (b^2 - a^2)/2.", "quantifier": "all lens positions, orientations, axis ratios in (0, 1), positive Einstein radii, positions off the centre, cosmologies and redshifts", "why_tests_cant": "Closed forms over a continuum of axis ratios that tie together four methods (jacobian_lens_equation, magnification, convergence, time_delay); a test checks single lenses to a tolerance.", "anchors": ["src/caustics/lenses/func/sie.py", "src/caustics/lenses/base.py"]}
{"id": "C142", "title": "A shear breaks the Einstein ring of a star or galaxy into a cross", "statement": "A SinglePlane of an unsoftened Point or SIS lens of Einstein radius R, an ExternalShear of strength g at position angle theta (gamma_1 = g cos 2 theta, gamma_2 = g sin 2 theta) and a MassSheet kappa, all at one position, with 0 < g < 1 - kappa, shows a source behind its centre at exactly four positions. With u = 1 - kappa - g and v = 1 - kappa + g, those along theta are at R/sqrt(u) for a Point and R/u for an SIS, upright, with magnification 1/(4 g u) and 1/(2 g u); those across are at R/sqrt(v) and R/v, mirrored, with magnification 1/(4 g v) and 1/(2 g v). Opposite images arrive together; the mirrored pair lags by D_dt/c times R^2/2 ln(v/u) for a Point and R^2 g/(u v) for an SIS.", "quantifier": "all lens positions, Einstein radii, shear strengths and angles, sheets (also negative), cosmologies and redshifts; all image positions off the centre", "why_tests_cant": "The exact image set and closed forms in four continuous parameters; a test solves single scenes to a tolerance and cannot show that no other image exists.", "anchors": ["src/caustics/lenses/singleplane.py", "src/caustics/lenses/func/point.py", "src/caustics/lenses/func/sis.py", "src/caustics/lenses/func/external_shear.py", "src/caustics/lenses/func/mass_sheet.py", "src/caustics/lenses/base.py"]}
{"id": "C143", "title": "How many images a source on an axis of an elliptical lens has", "statement": "For an SIE without core with 0 < q < 1, f = sqrt(1 - q^2) and K = Rein sqrt(q)/f: a source on the major axis at distance beta from the centre has exactly one image off the lens centre, plus one when beta < K atan(f/q), plus two when beta < K (f/q - atan(f/q)); a source on the minor axis has one, plus one when beta < K artanh(f), plus two when beta < K (artanh(f) - f). Hence exactly three images of an on-axis source occur only on the major axis and exactly when 2 atan(f/q) < f/q.", "quantifier": "all lens positions, orientations, axis ratios below one, Einstein radii and signed source distances, the centre and the limiting distances included; all image positions", "why_tests_cant": "A count of all solutions of the lens equation on a continuum of sources and lenses, with the exact distances at which it jumps; a test finds roots of single scenes and cannot exclude further ones.", "anchors": ["src/caustics/lenses/func/sie.py", "src/caustics/lenses/sie.py", "src/caustics/lenses/base.py"]}
{"id": "C144", "title": "An expression given as a string evaluates to the number it stands for and can use nothing but pi", "statement": "caustics.utils._eval_expression returns the int or float an expression string stands for: every arithmetic expression over numbers and pi gives its value, or ZeroDivisionError when it divides by zero. pi may be used anywhere in it; any other name or attribute is refused with NameError before anything is evaluated, so that nothing but a number can be obtained from it.", "quantifier": "all expressions built from numbers, names, attributes, arithmetic, tuples, lambdas and calls, of any size; every recursion limit", "why_tests_cant": "The claim is about every string anyone may write, and one of security: tests try a few allowed and a few forbidden names, not the ways around the check.", "anchors": ["src/caustics/utils.py"]}
{"id": "C145", "title": "Delays behind concentric lenses follow from the image positions", "statement": "For any number of SIS, SIE (without core), Point, MassSheet and ExternalShear lenses at one position, combined in a SinglePlane, the time delay between two images of one source is D_dt/c times the difference of h, where h(x, y) = ((1 - kappa) r^2 - gamma_1 (x^2 - y^2) - 2 gamma_2 x y)/2 + M ln r for coordinates from the lens, with the total convergence, the total shear and the sum M of the squared Einstein radii of the Points. The isothermal lenses and the source position do not enter, so models that agree otherwise predict the same delay for the same images. Without net shear and with kappa < 1 the image farther from the lens arrives first.", "quantifier": "all numbers, strengths, shapes, orientations and orders of the lenses; all sources and pairs of images; all cosmologies and redshifts", "why_tests_cant": "An identity across models of any composition that holds only at images of one source; tests evaluate single lenses at single positions.", "anchors": ["src/caustics/lenses/base.py", "src/caustics/lenses/singleplane.py", "src/caustics/lenses/func/sie.py", "src/caustics/lenses/func/sis.py", "src/caustics/lenses/func/point.py", "src/caustics/lenses/func/external_shear.py", "src/caustics/lenses/func/mass_sheet.py"]}
{"id": "C146", "title": "Simulated images cannot tell a lens from its mass-sheet transform", "statement": "If all the mass of a thin lens is multiplied by 1 - kappa, a MassSheet of convergence kappa is added in a SinglePlane, and the source is shrunk by 1 - kappa towards the centre of the sheet, LensSource returns exactly the same image and Microlens the same flux and error for the same draws. The shrunk source is the Sersic profile with its position moved and Re multiplied by |1 - kappa|, the Pixelated or PixelatedTime source with pixelscale multiplied by 1 - kappa (kappa < 1), the uniform StarSource (radius at most one) with theta_s multiplied by |1 - kappa|, or the LightStack of such.", "quantifier": "all thin lenses and their scaled versions, all kappa (not 1 for the profiles), all sheet centres, all sources, all simulator settings, PSFs, modes, quadrature levels, upsampling factors, chunk sizes and lens light", "why_tests_cant": "An exact equality of whole images over all models, sources and settings; tests compare single pixels of single scenes.", "anchors": ["src/caustics/sims/lens_source.py", "src/caustics/sims/microlens.py", "src/caustics/light/func/sersic.py", "src/caustics/light/pixelated.py", "src/caustics/light/pixelated_time.py", "src/caustics/light/func/star_source.py", "src/caustics/light/light_stack.py", "src/caustics/lenses/singleplane.py"]}
{"id": "C147", "title": "Galaxies behind a constant shear are sheared galaxies, with the reduced shear as ellipticity", "statement": "A Sersic galaxy turned like the shear, seen through an ExternalShear (gamma, theta) and a MassSheet kappa in a SinglePlane with kappa + |gamma| < 1, has exactly the brightness of another Sersic galaxy with the same n and Ie, axis ratio multiplied by (1-kappa-gamma)/(1-kappa+gamma), Re divided by 1-kappa-gamma, and its centre moved to the image position. LensSource returns the same image for both, the first lensed and the second with lens_source=False. For a round galaxy of any phi the image has orientation theta, and its e1, e2 in the library's convention are gamma_1/(1-kappa), gamma_2/(1-kappa).", "quantifier": "all shears and sheets with kappa + |gamma| < 1, all Sersic parameters with q and Re not zero, all positions, both k conventions, all simulator settings", "why_tests_cant": "An exact identity of brightness profiles and whole images, tying the sign and angle conventions of shears, lens equation, ellipticities and light profiles together for all parameters.", "anchors": ["src/caustics/lenses/func/external_shear.py", "src/caustics/lenses/func/mass_sheet.py", "src/caustics/lenses/singleplane.py", "src/caustics/light/func/sersic.py", "src/caustics/light/sersic.py", "src/caustics/angle_mixin.py", "src/caustics/sims/lens_source.py"]}
{"id": "C148", "title": "A constant shear changes the ellipticity of every galaxy by (e + g) / (1 + e g*)", "statement": "A Sersic galaxy given by e1, e2 (|e| < 1) of any orientation, seen through an ExternalShear (1 - kappa) g with |g| < 1 of any orientation and a MassSheet kappa (not 1), looks exactly like the Sersic galaxy with ellipticity (e + g) / (1 + e g*), the same n and Ie, Re scaled by a positive factor, at the only image of its centre; LensSource returns the same image for both. Its area q Re^2 is multiplied by the magnification 1 / ((1 - kappa)^2 - gamma^2).", "quantifier": "all ellipticities and reduced shears of modulus below one, all kappa but 1, all positions and Sersic parameters with Re not zero, all simulator settings", "why_tests_cant": "An exact identity for all orientations of galaxy and shear at once, through atan2, the clamped axis ratio and the rotation of the light profile.", "anchors": ["src/caustics/angle_mixin.py", "src/caustics/lenses/func/external_shear.py", "src/caustics/lenses/func/mass_sheet.py", "src/caustics/lenses/singleplane.py", "src/caustics/light/func/sersic.py", "src/caustics/light/sersic.py", "src/caustics/sims/lens_source.py"]}
{"id": "C149", "title": "The backend can be switched at any time and never ends up half switched", "statement": "After importing caustics and any sequence of assignments to caustics.backend.backend, failing ones included, every function of the backend object is the one for the library that backend.backend names, and caskade uses that same backend. An assignment succeeds exactly for the names torch and jax of an installed library that caskade takes (None means CASKADE_BACKEND, else caskade's); when it raises nothing changes. Only a switch to jax draws from NumPy's random state.", "quantifier": "all sequences of assignments, all values of the environment variable, any set of installed libraries, any set of names caskade takes", "why_tests_cant": "The test sets each backend once; stale functions or half-done switches depend on the history of assignments and on which of them failed.", "anchors": ["src/caustics/backend_obj.py"]}
{"id": "C150", "title": "Random draws are reproducible with a key and never reuse one without", "statement": "With the jax backend, any sequence of calls of rand, randn, randint, cluster_means and Microlens uses a different key for every draw made without a key argument, x and y of Microlens included, and the key kept for later is none of them. A call with a key gives the same result whatever was called before and leaves the state of the backend alone; Microlens with method grid draws nothing. With torch, Microlens raises NotImplementedError exactly when a key is given and the method is mcmc.", "quantifier": "all sequences of calls, all generators whose split does not repeat keys, all lenses, sources, fields of view and sample counts", "why_tests_cant": "Reuse of a key shows only as correlated noise, after some sequences of calls; tests check single draws.", "anchors": ["src/caustics/backend_obj.py", "src/caustics/sims/microlens.py", "src/caustics/utils.py"]}
{"id": "C151", "title": "Fields of view can be cut, joined and binned", "statement": "Two LensSource simulators of one scene with the same pixelscale, upsample_factor, quad_level and PSF, whatever the sizes and centres of their fields and their chunk sizes, give the same value in every pixel whose centre they share, also where the PSF reaches beyond the edge of a field. The image with pixelscale k p and upsample_factor k u is exactly the image with pixelscale p and upsample_factor u averaged over blocks of k by k pixels. (conv2d mode, no PSF, or fft mode for square fields and PSFs of equal half widths; C66 has the rest.)", "quantifier": "all scenes, lenses, light switches, field sizes and centres, pixel scales, upsampling factors, quadrature levels, PSFs with non-zero sum, chunk sizes, binning factors", "why_tests_cant": "Relates whole images of different simulators for every geometry, odd and even sizes and PSF shapes; tests fix one field.", "anchors": ["src/caustics/sims/lens_source.py", "src/caustics/utils.py"]}
{"id": "C152", "title": "A Point lens moves the light of a star along an ellipse and brightens it with one peak", "statement": "A star anywhere but exactly behind a Point lens (softening 0) has exactly two images under raytrace. Weighted with the values of magnification, their mean position is the star shifted away from the lens by its own offset times Rein^2/(d^2 + 2 Rein^2), d the distance. The shift is at most Rein/sqrt 8, reached exactly at d = sqrt 2 Rein. As the star passes on a straight line, the shift runs along one ellipse. The total magnification A is larger the smaller d is, and d^2 = 2 Rein^2 (A/sqrt(A^2 - 1) - 1).", "quantifier": "all lens and star positions, Einstein radii, impact parameters, directions and times", "why_tests_cant": "The claims need the full set of images of every source position; a test can only find images of a few.", "anchors": ["src/caustics/lenses/func/point.py", "src/caustics/lenses/base.py"]}
{"id": "C153", "title": "Two images and their fluxes give the SIS or Point lens that made them", "statement": "Let a source of unknown flux have two images behind an SIS (softening 0): it lies half-way between them, Rein is half their separation, and the lens is at (F2 P1 + F1 P2)/(F1 + F2), F the observed fluxes (unlensed flux times magnification). Behind a Point lens (softening 0) the lens is at (sqrt F2 P1 + sqrt F1 P2)/(sqrt F1 + sqrt F2), Rein is the separation times (F1 F2)^(1/4)/(sqrt F1 + sqrt F2), and the source is at P1 + P2 minus the lens. The two fluxes always differ, and for any two positions with unequal fluxes a fit of either lens has exactly one solution for lens, source and flux: the data do not tell an SIS from a Point lens, but the two fits never have the same lens position.", "quantifier": "all lens positions, Einstein radii, source positions and fluxes, and all pairs of images", "why_tests_cant": "Uniqueness of a fit ranges over all lenses that could have made the images; a test tries a few.", "anchors": ["src/caustics/lenses/func/sis.py", "src/caustics/lenses/func/point.py", "src/caustics/lenses/base.py"]}
{"id": "C154", "title": "The delay between two images measures the Hubble constant", "statement": "With FlatLambdaCDM (Om0 and redshifts kept) h0 times the time_delay difference between two positions is the same for every h0, for every thin lens, so a non-zero delay is reproduced by exactly one h0. Who leaves out a MassSheet kappa < 1 from the model reproduces images and delays with exactly h0/(1 - kappa). Behind an SIS h0 is D d^2 (F1 - F2)/(F1 + F2)/(2 t), D the time-delay distance for h0 = 1 over c in days per arcsec^2, d the separation, F the fluxes and t the delay of the two images; behind a Point lens D d^2 ((f1 - f2)/(f1 + f2)/2 + f1 f2/(f1 + f2)^2 ln(f1/f2))/t with f = sqrt F.", "quantifier": "all h0, Om0, comoving-distance tables, redshifts, thin lenses, lens and source positions, image pairs and sheets", "why_tests_cant": "That only one h0 reproduces a delay, and which h0 a wrong model gives, are statements about all values of h0 and all lenses.", "anchors": ["src/caustics/lenses/base.py", "src/caustics/cosmology/FlatLambdaCDM.py", "src/caustics/lenses/func/sis.py", "src/caustics/lenses/func/point.py"]}
{"id": "C155", "title": "How an SIS moves and brightens the light of a source", "statement": "For an SIS (softening 0) and a source at distance b > 0 from it, sum the magnification over all images under raytrace: the total is the larger of 1 + Rein/b and 2 Rein/b, it grows as the source comes closer, and b is the larger of Rein/(A - 1) and 2 Rein/A, A the total. The mean position of the images, weighted with magnification, is at exactly twice the offset of the source from the lens when b < Rein and one Rein further out than the source otherwise; the shift is min(b, Rein).", "quantifier": "all lens and source positions, Einstein radii and complete lists of images", "why_tests_cant": "The claims need the full set of images of every source position, on both sides of b = Rein.", "anchors": ["src/caustics/lenses/func/sis.py", "src/caustics/lenses/base.py"]}
{"id": "C156", "title": "A ring of galaxies averages to the reduced shear", "statement": "Take N Sersic galaxies with one ellipticity e, |e| < 1, with position angles spread evenly over half a turn, behind an ExternalShear (1 - kappa) g and a MassSheet kappa in one SinglePlane, |g| < 1, kappa <> 1. Each is seen as a Sersic galaxy with another ellipticity and size, and the mean of the N ellipticities that are seen differs from the reduced shear g by at most 2 |e|^N |g|^(N - 1), which goes to 0 as N grows.", "quantifier": "all ellipticities, shears, sheets, numbers of galaxies, positions and profiles", "why_tests_cant": "A bound on the error of a shear estimator for every shape, shear and number of galaxies; sampled images would only give instances, with measurement error.", "anchors": ["src/caustics/lenses/func/external_shear.py", "src/caustics/lenses/func/mass_sheet.py", "src/caustics/light/func/sersic.py", "src/caustics/angle_mixin.py"]}
{"id": "C157", "title": "The shear around a round lens weighs it", "statement": "For SIS, Point and PseudoJaffe, and for any lens that deflects towards its centre with consistent methods and continuous convergence: along every direction from the centre the shear the library reports is tangential, and twice its strength integrated over ln r from r1 to r2 is the mean convergence inside r1 less the mean convergence inside r2, both read off reduced_deflection_angle. The mean convergence is the mean of convergence: r^2 times it grows between two circles by twice the integral of r times convergence.", "quantifier": "all centres, directions, pairs of radii and lens parameters", "why_tests_cant": "An integral identity between three methods (shear, convergence, reduced_deflection_angle) over every interval of radii.", "anchors": ["src/caustics/lenses/base.py", "src/caustics/lenses/func/sis.py", "src/caustics/lenses/func/point.py", "src/caustics/lenses/func/pseudo_jaffe.py"]}
{"id": "C158", "title": "Many shears and sheets in one plane are one shear and one sheet", "statement": "In a SinglePlane with any other lenses, any number of ExternalShears and MassSheets at any places can be replaced by one ExternalShear and one MassSheet at one place, with the sums of gamma_1, gamma_2 and kappa: convergence stays the same, the deflection changes by a constant, the potential by the matching linear function and a constant, and the source of every ray by a constant shift. If the summed kappa and shear differ in strength, there is exactly one place of the pair for which the deflection is the same everywhere.", "quantifier": "all lists of shears and sheets, their places and strengths, all other lenses, all positions", "why_tests_cant": "Lists of any length and any other lenses; the place without a shift is claimed to exist and to be unique.", "anchors": ["src/caustics/lenses/singleplane.py", "src/caustics/lenses/func/external_shear.py", "src/caustics/lenses/func/mass_sheet.py"]}
