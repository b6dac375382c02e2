{"id": "C01", "title": "Cylindrical position round trip", "statement": "cylindrical_to_cartesian(cartesian_to_cylindrical(p)) = p for every point p, and cartesian_to_cylindrical(cylindrical_to_cartesian(q)) = q for every q=(r,phi,z) with r>0 and -pi<phi<=pi; the returned radius is >=0 and the returned azimuth lies in (-pi,pi].", "quantifier": "every point of R^2/R^3, every (r,phi,z) in the principal range", "why_tests_cant": "The claim ranges over a continuum of real inputs; a test samples finitely many points with a tolerance.", "anchors": ["geoana/spatial.py:cylindrical_to_cartesian", "geoana/spatial.py:cartesian_to_cylindrical"]}
{"id": "C02", "title": "Cylindrical vector transform is an isometry and the two directions are inverse", "statement": "Converting vector components at a point from Cartesian to cylindrical and back returns the same vector, keeps its length and dot products, and sends the radial unit vector to (x/rho, y/rho, 0).", "quantifier": "every location and every vector", "why_tests_cant": "The claim ranges over a continuum of real inputs; a test samples finitely many points with a tolerance.", "anchors": ["geoana/spatial.py:cylindrical_to_cartesian", "geoana/spatial.py:cartesian_to_cylindrical"]}
{"id": "C03", "title": "Spherical position round trip", "statement": "spherical_to_cartesian(cartesian_to_spherical(p)) = p for every p, and the opposite composition is the identity for r>0, -pi<phi<=pi, 0<theta<pi; the radius is |p|, the polar angle lies in [0,pi].", "quantifier": "every point of R^3, every (r,phi,theta) in the principal range", "why_tests_cant": "The claim ranges over a continuum of real inputs; a test samples finitely many points with a tolerance.", "anchors": ["geoana/spatial.py:spherical_to_cartesian", "geoana/spatial.py:cartesian_to_spherical"]}
{"id": "C04", "title": "Spherical vector transform is an isometry and the two directions are inverse", "statement": "Converting vector components at a point between Cartesian and spherical coordinates should preserve length and the two conversions should be mutually inverse. FINDING (code violates this): spherical_to_cartesian maps a unit azimuthal vector to zero at some location, and equals the expansion in the local orthonormal frame exactly when the azimuthal component is zero or cos(polar)=cos(azimuth); cartesian_to_spherical returns the right radial and azimuthal components but a wrong polar component (right on the plane z=0).", "quantifier": "every location and every vector", "why_tests_cant": "The claim ranges over a continuum of real inputs; a test samples finitely many points with a tolerance.", "anchors": ["geoana/spatial.py:spherical_to_cartesian", "geoana/spatial.py:cartesian_to_spherical"]}
{"id": "C05", "title": "rotation_matrix_from_normals returns a proper rotation taking v0 to v1", "statement": "For all non-zero v0, v1 the returned matrix R is orthogonal with determinant 1 and R v0/|v0| = v1/|v1| (exactly when |v0^ x v1^|>=tol or the vectors are exactly (anti)parallel, and to within a small multiple of tol otherwise).", "quantifier": "every pair of non-zero vectors, every tol in (0,1/2]", "why_tests_cant": "The claim ranges over a continuum of real inputs; a test samples finitely many points with a tolerance.", "anchors": ["geoana/spatial.py:rotation_matrix_from_normals"]}
{"id": "C06", "title": "rotate_points_from_normals is a rigid motion", "statement": "rotate_points_from_normals(xyz,n0,n1,x0) keeps every pairwise distance, leaves x0 fixed, and maps x0+n0^ to x0+n1^; a grid that is not 3 wide is rejected.", "quantifier": "every list of points, every pair of non-zero normals, every centre", "why_tests_cant": "The claim ranges over a continuum of real inputs; a test samples finitely many points with a tolerance.", "anchors": ["geoana/spatial.py:rotate_points_from_normals"]}
{"id": "C07", "title": "distance is the Euclidean metric", "statement": "vector_distance returns xyz-origin row by row, distance returns its Euclidean norm (>=0, 0 only at the origin, triangle inequality, translation invariant), vector_dot is the row-wise inner product bounded by the product of norms; a wrong width or a wrong origin length is rejected.", "quantifier": "every list of points, every origin/vector", "why_tests_cant": "The claim ranges over a continuum of real inputs; a test samples finitely many points with a tolerance.", "anchors": ["geoana/spatial.py:vector_distance", "geoana/spatial.py:distance", "geoana/spatial.py:vector_dot", "geoana/spatial.py:vector_magnitude"]}
{"id": "C08", "title": "mkvc flattens in column-major order", "statement": "mkvc(x,n) lists every entry of x exactly once with the first axis varying fastest, for n in {1,2,3} with trailing singleton axes appended.", "quantifier": "every array of every shape", "why_tests_cant": "The claim ranges over all shapes and all index tuples.", "anchors": ["geoana/utils.py:mkvc"]}
{"id": "C09", "title": "ndgrid enumerates the tensor product grid", "statement": "ndgrid(x1,..,xd) (d=1,2,3) returns row number i1+n1*(i2+n2*i3) equal to (x1[i1],x2[i2],x3[i3]); the number of rows is the product of the lengths; vector=False returns arrays of shape (n1,n2[,n3]) whose (i1,i2[,i3]) entries are those coordinates.", "quantifier": "every list of 1 to 3 vectors of every length", "why_tests_cant": "The claim ranges over all lengths and all indices.", "anchors": ["geoana/utils.py:ndgrid", "geoana/utils.py:mkvc"]}
{"id": "C10", "title": "check_xyz_dim accepts exactly arrays with the right last axis", "statement": "check_xyz_dim returns its argument unchanged when the last axis has the requested length and raises ValueError otherwise (IndexError for a 0-d array); a tuple of equally shaped coordinate arrays is stacked along a new last axis so that component j of the result is the j-th array.", "quantifier": "every shape and every tuple", "why_tests_cant": "All shapes.", "anchors": ["geoana/utils.py:check_xyz_dim"]}
{"id": "C11", "title": "append_ndim makes the frequency/time axis lead under broadcasting", "statement": "append_ndim(a,n) appends n singleton axes; combined with an n-dimensional array b the broadcast result has shape a.shape+b.shape and entry (i,j) depends on a only through a[i] and on b only through b[j].", "quantifier": "all shapes and all indices", "why_tests_cant": "All shapes.", "anchors": ["geoana/utils.py:append_ndim", "geoana/em/fdem/wholespace.py:ElectricDipoleWholeSpace", "geoana/em/tdem/wholespace.py:ElectricDipoleWholeSpace"]}
{"id": "C12", "title": "requires runs the function iff no dependency is missing", "statement": "A function decorated with requires(modules) is the function itself when no module is False, otherwise a stub that returns None and never runs the function.", "quantifier": "every dictionary of modules and every function", "why_tests_cant": "Every dictionary.", "anchors": ["geoana/utils.py:requires"]}
{"id": "C13", "title": "repeat_scalar repeats a column", "statement": "repeat_scalar(s,dim) is the (n,dim) array whose every column is s.", "quantifier": "every vector and dim", "why_tests_cant": "All sizes.", "anchors": ["geoana/spatial.py:repeat_scalar"]}
{"id": "C14", "title": "Prism corner order is validated", "statement": "A prism can be constructed from two finite corners exactly when max_location>min_location in every coordinate, arguments that are not 3-vectors are rejected, and a newly constructed prism with finite corners has volume (x2-x1)(y2-y1)(z2-z1)>0. FINDING (code violates the rest): the order is not checked by later assignments, which can make the volume negative, and nan corners pass the check.", "quantifier": "every pair of corners and every later assignment history", "why_tests_cant": "The claim ranges over every history of assignments and calls; a test exercises a handful of them.", "anchors": ["geoana/shapes.py:BasePrism.__init__", "geoana/shapes.py:BasePrism.min_location", "geoana/shapes.py:BasePrism.max_location", "geoana/shapes.py:BasePrism.volume"]}
{"id": "C15", "title": "The corner sum is a definite integral", "statement": "_eval_def_int(F, x,y,z) (used by every prism field) is the alternating corner sum, is additive when the prism is cut in two by a plane, vanishes for kernels not depending on all three variables, and equals the triple integral of the mixed third derivative; cycle rotates the axes.", "quantifier": "every kernel, prism, observation point and cutting plane", "why_tests_cant": "The claim ranges over a continuum of real inputs; a test samples finitely many points with a tolerance.", "anchors": ["geoana/shapes.py:BasePrism._eval_def_int"]}
{"id": "C16", "title": "Prism kernels are the documented derivatives of one another", "statement": "Off the coordinate planes prism_fz=-d/dz prism_f and prism_fzz, prism_fzx, prism_fzy = -d/d. prism_fz up to explicit terms that depend on only two of the coordinates (these cancel in every corner sum; the exact relation is refuted), the third derivative kernels are exactly -d/d. of the second derivative kernels; prism_f is symmetric in its arguments and d3 prism_f/dxdydz = -1/r.", "quantifier": "every (x,y,z) off the coordinate planes", "why_tests_cant": "The claim ranges over a continuum of real inputs; a test samples finitely many points with a tolerance.", "anchors": ["geoana/kernels/potential_field_prism.py:_prism_f", "geoana/kernels/potential_field_prism.py:_prism_fz", "geoana/kernels/potential_field_prism.py:_prism_fzz", "geoana/kernels/potential_field_prism.py:_prism_fzx", "geoana/kernels/potential_field_prism.py:_prism_fzy", "geoana/kernels/potential_field_prism.py:_prism_fzzz", "geoana/kernels/potential_field_prism.py:_prism_fxxy", "geoana/kernels/potential_field_prism.py:_prism_fxxz", "geoana/kernels/potential_field_prism.py:_prism_fxyz"]}
{"id": "C17", "title": "Compiled and pure-Python prism kernels agree", "statement": "For every (x,y,z), including points on coordinate planes, axes and the origin, the Cython kernel and the numpy fallback return the same value.", "quantifier": "every (x,y,z) in R^3 and every array of points", "why_tests_cant": "The claim ranges over a continuum of real inputs; a test samples finitely many points with a tolerance.", "anchors": ["geoana/kernels/potential_field_prism.py:_prism_f", "geoana/kernels/_extensions/potential_field_prism.pyx:prism_f", "geoana/kernels/_extensions/potential_field_prism.pyx:prism_fz", "geoana/kernels/_extensions/potential_field_prism.pyx:prism_fzz", "geoana/kernels/_extensions/potential_field_prism.pyx:prism_fzx", "geoana/kernels/_extensions/potential_field_prism.pyx:prism_fzy", "geoana/kernels/_extensions/potential_field_prism.pyx:prism_fzzz", "geoana/kernels/_extensions/potential_field_prism.pyx:prism_fxxy", "geoana/kernels/_extensions/potential_field_prism.pyx:prism_fxxz", "geoana/kernels/_extensions/potential_field_prism.pyx:prism_fxyz"]}
{"id": "C18", "title": "Compiled and pure-Python rTE_forward agree", "statement": "For every number of layers, frequencies and filter points (all positive) the C++ loop (flat Fortran-ordered buffers, unsigned loop counters) reads only in-bounds cells, terminates, writes each output cell once and returns the array of the numpy recursion evaluated with the C++ constant mu_0 = 4e-7 pi. FINDINGS: the numpy version takes mu_0 from scipy, and any other value of mu_0 changes the result for every ground; for an empty frequency array the compiled version raises IndexError where the numpy one returns an empty array.", "quantifier": "every layer count, frequency count, wavenumber count and all parameter values", "why_tests_cant": "All sizes; wrap-around of an unsigned counter; all real/complex values.", "anchors": ["geoana/kernels/tranverse_electric_reflections.py:_rTE_forward", "geoana/kernels/_extensions/_rTE.cpp:funcs::rTE", "geoana/kernels/_extensions/rTE.pyx:rTE_forward"]}
{"id": "C19", "title": "rTE_gradient is the derivative of rTE_forward", "statement": "Along every differentiable curve of layer conductivities, permeabilities and thicknesses through a passive ground (Re sigma >= 0, mu > 0, thicknesses >= 0, no propagating insulator), d/dt rTE = sum_k dsigma_k sigma_k' + sum_k dmu_k mu_k' + sum_k dh_k h_k' with the three arrays returned by rTE_gradient.", "quantifier": "every number of layers, every parameter curve, every frequency and wavenumber", "why_tests_cant": "The claim ranges over a continuum of real inputs; a test samples finitely many points with a tolerance.", "anchors": ["geoana/kernels/tranverse_electric_reflections.py:_rTE_gradient", "geoana/kernels/tranverse_electric_reflections.py:_rTE_forward"]}
{"id": "C20", "title": "Compiled and pure-Python rTE_gradient agree", "statement": "For every number of layers the C++ reverse sweep returns the three arrays of the numpy reverse sweep (same vacuum permeability), writing each output cell exactly once and in bounds.", "quantifier": "every layer/frequency/filter count, all values", "why_tests_cant": "All sizes and values.", "anchors": ["geoana/kernels/tranverse_electric_reflections.py:_rTE_gradient", "geoana/kernels/_extensions/_rTE.cpp:funcs::rTEgrad", "geoana/kernels/_extensions/rTE.pyx:rTE_gradient"]}
{"id": "C21", "title": "Splitting a homogeneous layer does not change the reflection coefficient", "statement": "For every passive ground: replacing a layer of thickness h by two layers with the same sigma, mu and thicknesses h1+h2=h leaves rTE_forward unchanged; so does adding interfaces inside the basement; a zero-thickness layer has no effect.", "quantifier": "every layered model, every position of the cut", "why_tests_cant": "The claim ranges over a continuum of real inputs; a test samples finitely many points with a tolerance.", "anchors": ["geoana/kernels/tranverse_electric_reflections.py:_rTE_forward"]}
{"id": "C22", "title": "The reflection coefficient is passive", "statement": "For real mu>0, sigma with Re>=0 and displacement currents below cut-off (in particular every real sigma >= 0), every f>0 and lambda>0, |rTE|<1 for any number of layers.", "quantifier": "every layered model", "why_tests_cant": "The claim ranges over a continuum of real inputs; a test samples finitely many points with a tolerance.", "anchors": ["geoana/kernels/tranverse_electric_reflections.py:_rTE_forward"]}
{"id": "C23", "title": "Edge-extension values of the log kernels are the right limits", "statement": "On the line x=z=0, y<0 the second derivative kernels' special value makes the corner difference equal to the limit of the regular formula.", "quantifier": "every pair of corners on the line", "why_tests_cant": "The claim ranges over a continuum of real inputs; a test samples finitely many points with a tolerance.", "anchors": ["geoana/kernels/potential_field_prism.py:_prism_fzx", "geoana/kernels/potential_field_prism.py:_prism_fzy"]}
{"id": "C24", "title": "Point mass: field and gradient are derivatives of the potential", "statement": "PointMass.gravitational_field is the gradient of gravitational_potential, gravitational_gradient is the Jacobian of gravitational_field, symmetric and trace free (Laplace), away from the mass; potential is positive for positive mass and scales as mass/distance.", "quantifier": "every mass, location and observation point off the mass", "why_tests_cant": "The claim ranges over a continuum of real inputs; a test samples finitely many points with a tolerance.", "anchors": ["geoana/gravity.py:PointMass"]}
{"id": "C25", "title": "Uniform sphere: matches a point mass outside, continuous, Poisson inside", "statement": "Sphere potential and field equal those of a point mass of the same total mass outside, are continuous across the surface, the field is the gradient of the potential inside and outside, and the trace of the gradient is 0 outside and -4 pi G rho inside.", "quantifier": "every radius>0, density, location and point", "why_tests_cant": "The claim ranges over a continuum of real inputs; a test samples finitely many points with a tolerance.", "anchors": ["geoana/gravity.py:Sphere"]}
{"id": "C26", "title": "Sphere mass/density/radius bookkeeping", "statement": "After any assignment history of a gravity Sphere, mass reads 4/3 pi R^3 rho; assigning mass reads back the same number for nonzero radius and keeps the radius, assigning radius keeps rho; every positive radius can be constructed. FINDING: radius 0 is accepted by the radius setter but makes the constructor raise ZeroDivisionError.", "quantifier": "every assignment history", "why_tests_cant": "The claim ranges over every history of assignments and calls; a test exercises a handful of them.", "anchors": ["geoana/gravity.py:Sphere.__init__", "geoana/gravity.py:Sphere.mass", "geoana/gravity.py:Sphere.radius", "geoana/gravity.py:Sphere.rho"]}
{"id": "C27", "title": "Prism potential is the Newtonian volume integral", "statement": "For every observation point strictly outside the prism, Prism.gravitational_potential = G rho * triple integral over the prism of 1/|r-r'|.", "quantifier": "every prism, density and exterior point", "why_tests_cant": "The claim ranges over a continuum of real inputs; a test samples finitely many points with a tolerance.", "anchors": ["geoana/gravity.py:Prism.gravitational_potential", "geoana/kernels/potential_field_prism.py:_prism_f"]}
{"id": "C28", "title": "Prism field is the gradient of its potential and the tensor the Jacobian of the field", "statement": "Away from the planes of the faces, gravitational_field = grad gravitational_potential and gravitational_gradient = Jacobian of gravitational_field, which is symmetric.", "quantifier": "every prism and point off the face planes (inside or outside)", "why_tests_cant": "The claim ranges over a continuum of real inputs; a test samples finitely many points with a tolerance.", "anchors": ["geoana/gravity.py:Prism"]}
{"id": "C29", "title": "Prism satisfies Poisson's equation", "statement": "The trace of Prism.gravitational_gradient is -4 pi G rho at interior points and 0 at exterior points (off the face planes).", "quantifier": "every prism and point off the face planes", "why_tests_cant": "The claim ranges over a continuum of real inputs; a test samples finitely many points with a tolerance.", "anchors": ["geoana/gravity.py:Prism.gravitational_gradient"]}
{"id": "C30", "title": "Prism fields add when a prism is cut", "statement": "Potential, field and gradient of a prism equal the sums over the two prisms obtained by cutting it with a coordinate plane; all are linear in rho; mass adds too.", "quantifier": "every prism, cut and observation point", "why_tests_cant": "The claim ranges over a continuum of real inputs; a test samples finitely many points with a tolerance.", "anchors": ["geoana/gravity.py:Prism", "geoana/shapes.py:BasePrism"]}
{"id": "C31", "title": "Physical properties stay valid under any history", "statement": "After any sequence of assignments to sigma, rho, mu, epsilon (accepted or rejected), an object of any class derived from BaseEM never has sigma<=0, mu<=0 or epsilon<0 (nan is accepted by the setters and is the only other possibility).", "quantifier": "every assignment history, including nan/inf and unconvertible values", "why_tests_cant": "The claim ranges over every history of assignments and calls; a test exercises a handful of them.", "anchors": ["geoana/em/base.py:BaseEM"]}
{"id": "C32", "title": "A rejected assignment leaves the object unchanged", "statement": "If assigning an attribute raises, the object is exactly as before, for every class except PointCurrentHalfSpace and DipoleHalfSpace. FINDING: for these two, a rejected rho=inf or a rejected location of shape (3,1) is stored in the electrode while its internal sources keep the old value.", "quantifier": "every class, attribute, value and prior state", "why_tests_cant": "The claim ranges over every history of assignments and calls; a test exercises a handful of them.", "anchors": ["geoana/em/base.py:BaseEM", "geoana/em/base.py:BaseDipole", "geoana/em/static/halfspace.py:PointCurrentHalfSpace.rho", "geoana/em/static/halfspace.py:PointCurrentHalfSpace.location", "geoana/em/fdem/layered.py:MagneticDipoleLayeredHalfSpace"]}
{"id": "C33", "title": "rho and sigma stay reciprocal", "statement": "Reading rho always gives 1/sigma; assigning rho=r (finite, >0) makes sigma=1/r and reading rho gives r; rho<0, rho=0 and rho=+-inf are rejected and change nothing.", "quantifier": "every assignment history", "why_tests_cant": "The claim ranges over every history of assignments and calls; a test exercises a handful of them.", "anchors": ["geoana/em/base.py:BaseEM.rho", "geoana/em/base.py:BaseEM.sigma"]}
{"id": "C34", "title": "Orientation is a unit vector", "statement": "After a dipole's orientation is assigned 'X','Y','Z' (any case) or any finite non-zero 3-vector, the stored orientation has unit length and the direction of the argument; any other string is rejected. FINDING: plane waves accept any other string and store it verbatim.", "quantifier": "every string and vector", "why_tests_cant": "The claim ranges over every history of assignments and calls; a test exercises a handful of them.", "anchors": ["geoana/em/base.py:BaseDipole.orientation", "geoana/em/fdem/wholespace.py:HarmonicPlaneWave.orientation", "geoana/em/tdem/wholespace.py:TransientPlaneWave.orientation"]}
{"id": "C35", "title": "Assigning an attribute never modifies the caller's data, and the caller cannot change the object behind its back", "statement": "Passing an array to location/orientation/nodes should leave the caller's array unchanged, and later writes to that array should not alter the object. Proved for every program in which no float64 array is passed to a setter that keeps its argument (and always for the copying setters of the em.static spheres and half-space electrodes). FINDING (violated otherwise): the object reads whatever the caller later writes; orientation normalises the caller's array in place, also corrupting a location that shares it; dipoles built with the default location share one array; the point electrode's location setter writes into the caller's nodes.", "quantifier": "every assignment/write history", "why_tests_cant": "The claim ranges over every history of assignments and calls; a test exercises a handful of them.", "anchors": ["geoana/em/base.py:BaseDipole.orientation", "geoana/em/base.py:BaseDipole.location", "geoana/em/static/wholespace.py:PointCurrentWholeSpace.location", "geoana/em/static/sphere.py:ElectrostaticSphere.location"]}
{"id": "C36", "title": "Locations always have shape (3,)", "statement": "After any history the location and orientation of every dipole, the location of PointMass and Sphere, the corners of prisms and the magnetization of MagneticPrism are vectors with exactly three entries. FINDING: the spheres of em.static accept a (3,k) array as location.", "quantifier": "every assignment history and every array shape", "why_tests_cant": "The claim ranges over every history of assignments and calls; a test exercises a handful of them.", "anchors": ["geoana/em/base.py:BaseDipole.location", "geoana/gravity.py:PointMass.location", "geoana/shapes.py:BasePrism", "geoana/em/static/sphere.py:ElectrostaticSphere.location", "geoana/em/static/sphere.py:MagnetostaticSphere.primary_field"]}
{"id": "C37", "title": "Line current nodes form an (n,3) array", "statement": "After any assignment history nodes has shape (n,3), a single point becomes one node, n_segments is n-1, and exactly the shapes (3,) and (n,3) are accepted. FINDING: n=0 is accepted; n_segments is then -1 and a point electrode's location cannot be read.", "quantifier": "every array and history", "why_tests_cant": "The claim ranges over every history of assignments and calls; a test exercises a handful of them.", "anchors": ["geoana/em/base.py:BaseLineCurrent"]}
{"id": "C38", "title": "Static magnetic dipole obeys magnetostatics", "statement": "MagneticDipoleWholeSpace: B = curl A, div B = 0, curl H = 0, div A = 0 off the dipole and H = B/mu.", "quantifier": "every moment, orientation, mu, location and point off the dipole", "why_tests_cant": "The claim ranges over a continuum of real inputs; a test samples finitely many points with a tolerance.", "anchors": ["geoana/em/static/wholespace.py:MagneticDipoleWholeSpace"]}
{"id": "C39", "title": "Magnetic pole field is a radial inverse-square field", "statement": "MagneticPoleWholeSpace: B is curl free and divergence free off the pole, points along r, magnitude mu m/(4 pi r^2); independent of orientation.", "quantifier": "every parameter and point off the pole", "why_tests_cant": "The claim ranges over a continuum of real inputs; a test samples finitely many points with a tolerance.", "anchors": ["geoana/em/static/wholespace.py:MagneticPoleWholeSpace"]}
{"id": "C40", "title": "coordinates='cylindrical' is a change of coordinates only", "statement": "For dipole, pole and loop, evaluating with coordinates='cylindrical' at (r,phi,z), r>0, returns the Cartesian field at the same physical point expressed in the local cylindrical basis (at r=0 the basis of angle 0 is used whatever phi); an unknown coordinate name is rejected.", "quantifier": "every point and source, every string", "why_tests_cant": "The claim ranges over a continuum of real inputs; a test samples finitely many points with a tolerance.", "anchors": ["geoana/em/static/wholespace.py:MagneticDipoleWholeSpace", "geoana/em/static/wholespace.py:MagneticPoleWholeSpace", "geoana/em/static/wholespace.py:CircularLoopWholeSpace"]}
{"id": "C41", "title": "Current loop: B is the curl of A", "statement": "Away from the wire and outside the small-radius branch (rho^2/(a^2+z^2) > 1e-6), CircularLoopWholeSpace.magnetic_flux_density is the curl of vector_potential, vector_potential is divergence free, and magnetic_flux_density is the Biot-Savart integral once around the loop.", "quantifier": "every radius, current, mu, location, orientation and point off the wire", "why_tests_cant": "The claim ranges over a continuum of real inputs; a test samples finitely many points with a tolerance.", "anchors": ["geoana/em/static/wholespace.py:CircularLoopWholeSpace.vector_potential", "geoana/em/static/wholespace.py:CircularLoopWholeSpace.magnetic_flux_density"]}
{"id": "C42", "title": "Current loop near its axis", "statement": "Near the axis (small-radius branch) the returned B is within 260 |mu I| a^2 |z| rho^5/(a^2+z^2)^(9/2) of the Biot-Savart integral, and on the axis B = mu I a^2/(2 (a^2+z^2)^(3/2)) along the orientation. The returned A should also approximate the exact vector potential. FINDING (violated): the third order term of A divides by a^2-4z^2 instead of multiplying, so next to the axis near z = a/2 the returned A exceeds every bound while the exact one stays below 1.", "quantifier": "every loop and every point near the axis", "why_tests_cant": "The claim ranges over a continuum of real inputs; a test samples finitely many points with a tolerance.", "anchors": ["geoana/em/static/wholespace.py:CircularLoopWholeSpace.vector_potential", "geoana/em/static/wholespace.py:CircularLoopWholeSpace.magnetic_flux_density"]}
{"id": "C43", "title": "Current loop vector potential is the line integral", "statement": "Outside the small-radius branch and off the wire, vector_potential equals mu I/(4 pi) times the integral of dl/|r-r_s| once around the loop, for any orthonormal pair spanning its plane with the orientation given by the right-hand rule.", "quantifier": "every loop and point off the wire", "why_tests_cant": "The claim ranges over a continuum of real inputs; a test samples finitely many points with a tolerance.", "anchors": ["geoana/em/static/wholespace.py:CircularLoopWholeSpace.vector_potential"]}
{"id": "C44", "title": "Line current electric potential and field", "statement": "E = -grad V off the end nodes; a closed polyline has V=0 and E=0; one node acts as a point source; J = sigma E; the field depends only on the end points.", "quantifier": "every polyline, current, sigma, point", "why_tests_cant": "The claim ranges over a continuum of real inputs; a test samples finitely many points with a tolerance.", "anchors": ["geoana/em/static/wholespace.py:LineCurrentWholeSpace.scalar_potential", "geoana/em/static/wholespace.py:LineCurrentWholeSpace.electric_field", "geoana/em/static/wholespace.py:LineCurrentWholeSpace.current_density"]}
{"id": "C45", "title": "Line current B is the Biot-Savart integral", "statement": "magnetic_flux_density equals mu I/(4 pi) times the sum over segments of the integral of dl x r/|r|^3, at every point not on the line through a segment; the internal rotation does not matter.", "quantifier": "every polyline and point off the carrying lines", "why_tests_cant": "The claim ranges over a continuum of real inputs; a test samples finitely many points with a tolerance.", "anchors": ["geoana/em/static/wholespace.py:LineCurrentWholeSpace.magnetic_flux_density"]}
{"id": "C46", "title": "Subdividing or reversing a wire", "statement": "Inserting a node on a segment leaves the magnetic field and vector potential unchanged; reversing the node order negates them; concatenating wires adds them.", "quantifier": "every polyline, every inserted node, every point off the lines", "why_tests_cant": "The claim ranges over a continuum of real inputs; a test samples finitely many points with a tolerance.", "anchors": ["geoana/em/static/wholespace.py:LineCurrentWholeSpace.magnetic_flux_density", "geoana/em/static/wholespace.py:LineCurrentWholeSpace.vector_potential"]}
{"id": "C47", "title": "Line current field is finite off the wire", "statement": "magnetic_flux_density of a line current should return a finite value at every point not on the wire itself. FINDING (violated): it returns a finite value exactly at the points that are off every infinite line through a segment; on the extension of a segment it returns nan.", "quantifier": "every polyline and every point off the wire", "why_tests_cant": "The claim ranges over a continuum of real inputs; a test samples finitely many points with a tolerance.", "anchors": ["geoana/em/static/wholespace.py:LineCurrentWholeSpace.magnetic_flux_density"]}
{"id": "C48", "title": "Line current vector potential", "statement": "vector_potential equals mu I/(4 pi) times the sum over segments of the integral of dl/|r| (also on the backward extension of a segment), and its curl is magnetic_flux_density.", "quantifier": "every polyline and point off the wire", "why_tests_cant": "The claim ranges over a continuum of real inputs; a test samples finitely many points with a tolerance.", "anchors": ["geoana/em/static/wholespace.py:LineCurrentWholeSpace.vector_potential", "geoana/kernels/potential_field_prism.py:_prism_fzy"]}
{"id": "C49", "title": "Point current obeys Ohm and Laplace", "statement": "PointCurrentWholeSpace: E = -grad V, J = E/rho, div E = 0 off the electrode, V = rho I/(4 pi r); the flux of J through every sphere centred on it is I.", "quantifier": "every rho>0, current, location and point", "why_tests_cant": "The claim ranges over a continuum of real inputs; a test samples finitely many points with a tolerance.", "anchors": ["geoana/em/static/wholespace.py:PointCurrentWholeSpace"]}
{"id": "C50", "title": "Half-space electrode: no current through the surface, image always in sync", "statement": "The normal current density vanishes on z=0, E=-grad V in the half-space, points with z>0 are rejected, and after any assignment history the internal primary/image sources have the facade's current and resistivity and mirrored locations.", "quantifier": "every point, parameter and assignment history", "why_tests_cant": "The claim ranges over every history of assignments and calls; a test exercises a handful of them. The claim ranges over a continuum of real inputs; a test samples finitely many points with a tolerance.", "anchors": ["geoana/em/static/halfspace.py:PointCurrentHalfSpace"]}
{"id": "C51", "title": "Four-electrode reciprocity", "statement": "DipoleHalfSpace.potential(M,N) with electrodes A,B equals the potential(A,B) with electrodes M,N; it is antisymmetric under swapping A,B and under swapping M,N; potential(M)-potential(N)=potential(M,N).", "quantifier": "every electrode configuration below the surface", "why_tests_cant": "The claim ranges over a continuum of real inputs; a test samples finitely many points with a tolerance.", "anchors": ["geoana/em/static/halfspace.py:DipoleHalfSpace"]}
{"id": "C52", "title": "Conducting sphere: E is minus the gradient of the potential", "statement": "ElectrostaticSphere: electric_field(total) = -grad potential(total) inside; total = primary + secondary; the potential is continuous everywhere; everything equals the primary when the conductivities are equal. FINDING (violated outside): electric_field is -grad potential outside only if there is no contrast, or on the equatorial plane, or at distance R^2 from the centre (the code has R r/r^4 where R^3 r/r^5 is needed).", "quantifier": "every sphere and point off the surface", "why_tests_cant": "The claim ranges over a continuum of real inputs; a test samples finitely many points with a tolerance.", "anchors": ["geoana/em/static/sphere.py:ElectrostaticSphere.potential", "geoana/em/static/sphere.py:ElectrostaticSphere.electric_field"]}
{"id": "C53", "title": "Conducting sphere: current is conserved at the surface", "statement": "The normal component of current_density should be continuous across the surface, and charge_density should be epsilon_0 times the jump of the normal electric field. Proved for the field derived from the returned potential, with charge_density restricted to its shell. FINDING: for the returned current_density it holds exactly when R=1, no contrast, or the primary field is tangential.", "quantifier": "every sphere and surface point", "why_tests_cant": "The claim ranges over a continuum of real inputs; a test samples finitely many points with a tolerance.", "anchors": ["geoana/em/static/sphere.py:ElectrostaticSphere.current_density", "geoana/em/static/sphere.py:ElectrostaticSphere.charge_density"]}
{"id": "C54", "title": "Magnetic sphere obeys magnetostatics", "statement": "MagnetostaticSphere: H = -grad potential inside, B = mu H, tangential H is continuous at the surface. FINDING: outside H = -grad potential fails in general, and normal B is continuous exactly when R=1, no contrast, or the primary field is tangential.", "quantifier": "every sphere and point", "why_tests_cant": "The claim ranges over a continuum of real inputs; a test samples finitely many points with a tolerance.", "anchors": ["geoana/em/static/sphere.py:MagnetostaticSphere"]}
{"id": "C55", "title": "Magnetic prism: H is the gradient of the scalar potential", "statement": "Off the face planes, magnetic_field = grad scalar_potential (as documented) and magnetic_field_gradient is the Jacobian of magnetic_field (symmetric, so curl H=0).", "quantifier": "every prism, magnetization and point off the face planes", "why_tests_cant": "The claim ranges over a continuum of real inputs; a test samples finitely many points with a tolerance.", "anchors": ["geoana/em/static/freespace.py:MagneticPrism"]}
{"id": "C56", "title": "Magnetic prism: B = mu0 (H + M) and div B = 0", "statement": "magnetic_flux_density is mu0(H+M) inside and mu0 H outside, the trace of magnetic_field_gradient is 0, and the total moment is volume times magnetization.", "quantifier": "every prism and point", "why_tests_cant": "The claim ranges over a continuum of real inputs; a test samples finitely many points with a tolerance.", "anchors": ["geoana/em/static/freespace.py:MagneticPrism.magnetic_flux_density", "geoana/em/static/freespace.py:MagneticPrism.magnetic_field_gradient"]}
{"id": "C57", "title": "Wavenumber solves the dispersion relation on the decaying branch", "statement": "k^2 = w^2 mu eps - i w mu sigma (without the first term if quasistatic), Re k>0 and Im k<0 for f>0, so exp(-ikr) decays.", "quantifier": "every frequency>0, sigma>0, mu>0, eps>=0", "why_tests_cant": "The claim ranges over a continuum of real inputs; a test samples finitely many points with a tolerance.", "anchors": ["geoana/em/fdem/base.py:wavenumber", "geoana/em/fdem/base.py:omega"]}
{"id": "C58", "title": "Skin depth is the 1/e distance", "statement": "|exp(-i k delta)| = 1/e where k is the wavenumber for the same parameters and flag: proved for the quasistatic flag. FINDING (violated without it): skin_depth(quasistatic=False) returns |Im k|/omega^2 instead of 1/|Im k|, and is the 1/e distance exactly when |Im k| equals omega.", "quantifier": "every frequency, sigma, mu, eps, both flag values", "why_tests_cant": "The claim ranges over a continuum of real inputs; a test samples finitely many points with a tolerance.", "anchors": ["geoana/em/fdem/base.py:skin_depth", "geoana/em/fdem/base.py:wavenumber"]}
{"id": "C59", "title": "The quasistatic flag means the same thing everywhere", "statement": "For every value accepted as flag, sigma_hat, wavenumber and skin_depth should agree on whether displacement currents are ignored. FINDING: sigma_hat and wavenumber test 'is True' while skin_depth tests truthiness, so they agree exactly when the flag is not a truthy object other than True (e.g. 1 or numpy.True_).", "quantifier": "every Python value used as flag", "why_tests_cant": "The claim ranges over every history of assignments and calls; a test exercises a handful of them.", "anchors": ["geoana/em/fdem/base.py:BaseFDEM", "geoana/em/fdem/base.py:wavenumber", "geoana/em/fdem/base.py:skin_depth", "geoana/em/fdem/base.py:sigma_hat"]}
{"id": "C60", "title": "Harmonic electric dipole satisfies Maxwell's equations", "statement": "ElectricDipoleWholeSpace (fdem), off the dipole: H = curl A, curl H = sigma E, div E = div H = 0, and in the quasistatic case curl E = -i w B. FINDING (violated with displacement currents): curl E = -i w mu H (sigma_hat/sigma), so Faraday's law fails at every point off the dipole axis; sigma/sigma_hat times the returned E would satisfy both laws.", "quantifier": "every frequency, medium, dipole and point", "why_tests_cant": "The claim ranges over a continuum of real inputs; a test samples finitely many points with a tolerance.", "anchors": ["geoana/em/fdem/wholespace.py:ElectricDipoleWholeSpace"]}
{"id": "C61", "title": "Harmonic magnetic dipole satisfies Maxwell's equations", "statement": "MagneticDipoleWholeSpace (fdem): curl E = -i w mu H and curl H = (sigma + i w eps) E off the dipole; div E = div H = 0.", "quantifier": "every frequency, medium, dipole and point", "why_tests_cant": "The claim ranges over a continuum of real inputs; a test samples finitely many points with a tolerance.", "anchors": ["geoana/em/fdem/wholespace.py:MagneticDipoleWholeSpace"]}
{"id": "C62", "title": "Harmonic plane wave satisfies Maxwell's equations", "statement": "HarmonicPlaneWave with horizontal polarization: curl E = -i w B, curl H = (sigma + i w eps) E, B = mu H, J = sigma E, E has the amplitude and polarization of the object at z=0, fields are transverse, and going down multiplies every component by exp(-dz/d) with d>0, d the skin depth in the quasistatic case.", "quantifier": "every frequency>0, medium, horizontal polarization and point", "why_tests_cant": "The claim ranges over a continuum of real inputs; a test samples finitely many points with a tolerance.", "anchors": ["geoana/em/fdem/wholespace.py:HarmonicPlaneWave"]}
{"id": "C63", "title": "Zero-frequency limits", "statement": "At f=0 the harmonic dipoles reduce to the static ones: H of the fdem magnetic dipole equals the static magnetic dipole, E of the fdem electric dipole equals the static electric dipole.", "quantifier": "every dipole and point", "why_tests_cant": "The claim ranges over a continuum of real inputs; a test samples finitely many points with a tolerance.", "anchors": ["geoana/em/fdem/wholespace.py:MagneticDipoleWholeSpace", "geoana/em/fdem/wholespace.py:ElectricDipoleWholeSpace", "geoana/em/static/wholespace.py:MagneticDipoleWholeSpace"]}
{"id": "C64", "title": "Harmonic dipole on a half-space: structure", "statement": "MagneticDipoleHalfSpace: total = secondary + primary static dipole field, linear in moment, superposition over orientations, equivariant under rotation about the vertical, reciprocal (Hy of an x-dipole = Hx of a y-dipole; Hz of a horizontal dipole = minus the horizontal field of a vertical one), the horizontal field of a horizontal dipole is a surface gradient, the secondary field tends to 0 with the frequency, and an array of frequencies gives the field for each frequency and point. FINDINGS (violated): the permeability of the object is ignored (mu_0 is used), and a scalar frequency with an array of points raises IndexError.", "quantifier": "every frequency, medium, orientation and point", "why_tests_cant": "The claim ranges over a continuum of real inputs; a test samples finitely many points with a tolerance.", "anchors": ["geoana/em/fdem/halfspace.py:MagneticDipoleHalfSpace"]}
{"id": "C65", "title": "Layered dipole: structure of the transform", "statement": "MagneticDipoleLayeredHalfSpace: for every digital filter total - secondary is the static dipole field beside the source (and both are undefined straight above or below it); the field is linear in the dipole moment vector, equivariant under rotations about the vertical, unchanged by horizontal shifts, and reciprocal; receivers below the surface are rejected, and a source below the surface is rejected by the constructor. FINDING: assigning such a location later is accepted and the field is computed.", "quantifier": "every filter, layered model, source and receiver", "why_tests_cant": "The claim ranges over a continuum of real inputs; a test samples finitely many points with a tolerance.", "anchors": ["geoana/em/fdem/layered.py:MagneticDipoleLayeredHalfSpace.magnetic_field"]}
{"id": "C66", "title": "Layered model arrays stay consistent", "statement": "After any accepted assignment history, sigma, mu and epsilon should broadcast to (n_layer, n_frequency) so that magnetic_field does not fail. Proved for every history that keeps the number of layers, and the number of frequencies unless all properties are one-dimensional, with the exact condition on the stored shapes. FINDING (violated otherwise): an accepted thickness array of another length always makes magnetic_field raise ValueError; so does another number of frequencies when mu (or sigma of a quasistatic object) is two-dimensional.", "quantifier": "every assignment history", "why_tests_cant": "The claim ranges over every history of assignments and calls; a test exercises a handful of them.", "anchors": ["geoana/em/fdem/layered.py:MagneticDipoleLayeredHalfSpace"]}
{"id": "C67", "title": "Layered sigma_hat has one row per layer and one column per frequency and equals sigma + i w eps", "statement": "Reading sigma_hat on a valid layered object should succeed with entry [l,f] = sigma[l,f] + i w_f eps[l,f]. FINDING: it does for one layer and one frequency only; with one frequency or quasistatic the array is transposed, with as many layers as frequencies the entry [l,f] belongs to layer f, otherwise the shape is wrong or the property raises.", "quantifier": "every number of layers and frequencies", "why_tests_cant": "All shapes.", "anchors": ["geoana/em/fdem/layered.py:MagneticDipoleLayeredHalfSpace.sigma_hat"]}
{"id": "C68", "title": "Harmonic loop helper functions", "statement": "vertical_magnetic_field_horizontal_loop(secondary=False) - (secondary=True) is turns*I/(2a), flux = mu*field, linear in current and turns; the secondary field tends to 0 as f -> 0.", "quantifier": "every frequency, medium, radius", "why_tests_cant": "The claim ranges over a continuum of real inputs; a test samples finitely many points with a tolerance.", "anchors": ["geoana/em/fdem/simple_functions.py:vertical_magnetic_field_horizontal_loop", "geoana/em/fdem/simple_functions.py:vertical_magnetic_flux_horizontal_loop"]}
{"id": "C69", "title": "peak_time and diffusion_distance locate the maxima of the transient", "statement": "For the transient plane wave, |E(z,t)| at fixed z != 0 is largest exactly at t = peak_time(z), and at fixed t is largest exactly where |z| = diffusion_distance(t).", "quantifier": "every z, t, sigma, mu", "why_tests_cant": "The claim ranges over a continuum of real inputs; a test samples finitely many points with a tolerance.", "anchors": ["geoana/em/tdem/base.py:peak_time", "geoana/em/tdem/base.py:diffusion_distance", "geoana/em/tdem/wholespace.py:TransientPlaneWave.electric_field"]}
{"id": "C70", "title": "Transient electric dipole satisfies the quasistatic Maxwell equations", "statement": "tdem ElectricDipoleWholeSpace: H = curl A, curl E = -dB/dt, curl H = sigma E, and magnetic_field_time_deriv is the time derivative of magnetic_field, off the dipole for t>0.", "quantifier": "every time, medium, dipole and point", "why_tests_cant": "The claim ranges over a continuum of real inputs; a test samples finitely many points with a tolerance.", "anchors": ["geoana/em/tdem/wholespace.py:ElectricDipoleWholeSpace"]}
{"id": "C71", "title": "Transient plane wave satisfies the quasistatic Maxwell equations", "statement": "TransientPlaneWave: curl E = -dB/dt, curl H = sigma E, hence the diffusion equation; fields transverse.", "quantifier": "every time, medium, polarization and point", "why_tests_cant": "The claim ranges over a continuum of real inputs; a test samples finitely many points with a tolerance.", "anchors": ["geoana/em/tdem/wholespace.py:TransientPlaneWave"]}
{"id": "C72", "title": "Transient loop: the derivative functions are time derivatives", "statement": "vertical_magnetic_flux_time_deriv_horizontal_loop = d/dt vertical_magnetic_flux_horizontal_loop, and likewise for the field.", "quantifier": "every time, medium, radius", "why_tests_cant": "The claim ranges over a continuum of real inputs; a test samples finitely many points with a tolerance.", "anchors": ["geoana/em/tdem/simple_functions.py:vertical_magnetic_field_horizontal_loop", "geoana/em/tdem/simple_functions.py:vertical_magnetic_flux_time_deriv_horizontal_loop", "geoana/em/tdem/simple_functions.py:vertical_magnetic_field_time_deriv_horizontal_loop"]}
{"id": "C73", "title": "Transient vertical dipole: the derivative function is the time derivative", "statement": "magnetic_field_time_deriv_magnetic_dipole = d/dt magnetic_field_vertical_magnetic_dipole in all three components (erf and Bessel functions).", "quantifier": "every time, medium, offset", "why_tests_cant": "The claim ranges over a continuum of real inputs; a test samples finitely many points with a tolerance.", "anchors": ["geoana/em/tdem/simple_functions.py:magnetic_field_vertical_magnetic_dipole", "geoana/em/tdem/simple_functions.py:magnetic_field_time_deriv_magnetic_dipole", "geoana/em/tdem/halfspace.py:VerticalMagneticDipoleHalfSpace"]}
{"id": "C74", "title": "Transients decay", "statement": "The transient loop field is positive and strictly decreasing in time, starts from the static field n I/(2a) (within a relative error 12 t/(mu sigma a^2)), and decays at least as t^(-3/2) with the documented-order constant; the transient dipole vector potential is non-zero and strictly below the static one.", "quantifier": "every time, medium", "why_tests_cant": "The claim ranges over a continuum of real inputs; a test samples finitely many points with a tolerance.", "anchors": ["geoana/em/tdem/simple_functions.py:vertical_magnetic_field_horizontal_loop", "geoana/em/tdem/wholespace.py:ElectricDipoleWholeSpace.vector_potential"]}
{"id": "C75", "title": "Line-of-sight vectors have unit length", "statement": "For every satellite above the earth, every utm conversion and every list of locations get_LOS_vector returns one unit vector per location, horizontally perpendicular to the satellite track and not pointing down; no location is undefined, and each equals the result for that location alone. FINDING: locations given as an array with a location in each row (what plot_displacement passes) always raise.", "quantifier": "every satellite geometry and location", "why_tests_cant": "The claim ranges over a continuum of real inputs; a test samples finitely many points with a tolerance.", "anchors": ["geoana/earthquake/oksar.py:EarthquakeInterferogram.get_LOS_vector", "geoana/earthquake/oksar.py:EarthquakeInterferogram._ang_to_gc"]}
{"id": "C76", "title": "Oksar simulation grid and displacement can be evaluated", "statement": "FINDING: the getter of V returns an attribute that is never set, so after any history reading V, simulation_grid, displacement_vector and plot_displacement raise AttributeError. Were V readable: the grid has shape[0]*shape[1] points but is origin + s U + t V exactly when U[1] = V[0]; displacement_vector raises for every slipping fault unless the grid has one or three points, for which it returns three rows mixing the stations (row c: component c at the first two stations, turned as if it were a horizontal vector, and component c at the third), and returns one zero vector, not one per point, when slip = 0.", "quantifier": "every constructor argument", "why_tests_cant": "The claim ranges over every history of assignments and calls; a test exercises a handful of them.", "anchors": ["geoana/earthquake/oksar.py:Oksar.V", "geoana/earthquake/oksar.py:Oksar.simulation_grid", "geoana/earthquake/oksar.py:Oksar.displacement_vector", "geoana/earthquake/oksar.py:Oksar._dc3d3"]}
{"id": "C77", "title": "Interferogram metadata reads back what was stored", "statement": "Every attribute of EarthquakeInterferogram except local_rigidity and event_date reads back the (converted) value last assigned to it and is not changed by rejected assignments or by assignments to other attributes. FINDING: local_rigidity can never be read (AttributeError), and event_date reads processed_date.", "quantifier": "every assignment history", "why_tests_cant": "The claim ranges over every history of assignments and calls; a test exercises a handful of them.", "anchors": ["geoana/earthquake/oksar.py:EarthquakeInterferogram"]}
{"id": "C78", "title": "Interferogram raster layout", "statement": "The plotted raster has shape[0]+1 easting edges location[0] + k pixel_size[0] and shape[1]+1 northing edges ending at location[1]; sample a + shape[0]*b is drawn in column a and row b counted from the top, times scaling, hidden where it is 0 or nan; wrapped values are the representatives in [0, fringe); the stored data is not modified; a data size other than shape[0]*shape[1] raises ValueError. FINDING (documentation): the docstrings describe location, shape and pixel_size as (northing, easting) with the bottom left corner, but the code reads them as (easting, northing) with the top left corner.", "quantifier": "every shape, pixel size, data", "why_tests_cant": "All sizes and indices.", "anchors": ["geoana/earthquake/oksar.py:EarthquakeInterferogram._get_plot_data"]}
{"id": "C79", "title": "JSON dates parse back", "statement": "Formatting any calendar date as YYYY-MM-DD or YYYY/MM/DD, or any date-time as YYYY-MM-DDTHH:MM:SSZ, and assigning it stores exactly that date; whatever is accepted is a calendar date, a string is never read as anything but what it says: exactly the strings YYYY-M-DTH:M:SZ whose numbers have one or two digits (a day below ten also a blank and a digit, t and z also in lower case) and that form a calendar date are read when they do not have ten characters, and anything unreadable raises TypeError.", "quantifier": "every calendar date and time", "why_tests_cant": "All dates.", "anchors": ["geoana/earthquake/oksar.py:_date_time_from_json"]}
{"id": "C80", "title": "Oksar fault parameters stay in range", "statement": "After any assignment history depth_top>=0, 0<=strike<=360, 0<=dip<=90, -180<=rake<=180, slip>=0, length>=0 (nan aside), and depth_top<=depth_bottom as long as depth_top is not reassigned. FINDING: reassigning depth_top can put it below depth_bottom.", "quantifier": "every assignment history", "why_tests_cant": "The claim ranges over every history of assignments and calls; a test exercises a handful of them.", "anchors": ["geoana/earthquake/oksar.py:Oksar"]}
{"id": "C81", "title": "Oksar displacement at a point does not depend on the other points", "statement": "The displacement computed at a point is the same whatever other points are evaluated with it as long as no coordinate is rounded to zero against the largest coordinate of the batch. FINDING: it does depend on the other points otherwise (far points make the solver round a near point's coordinates to 0), and batches of sizes other than one and three raise.", "quantifier": "every batch of points", "why_tests_cant": "The claim ranges over a continuum of real inputs; a test samples finitely many points with a tolerance.", "anchors": ["geoana/earthquake/oksar.py:Oksar._dc3d3"]}
{"id": "C82", "title": "plot2Ddata does not modify its option dictionaries", "statement": "After a call of plot2Ddata the dictionaries passed as contourOpts, levelOpts, streamplotOpts and shadeOpts should be unchanged, and inconsistent clim/vmin/vmax raises before anything is drawn. FINDING: contourOpts loses its vmin and vmax entries (also when the call fails later), so the same call made twice is coloured differently; it is unchanged exactly when it held neither. All other dictionaries are untouched.", "quantifier": "every option dictionary", "why_tests_cant": "The claim ranges over every history of assignments and calls; a test exercises a handful of them.", "anchors": ["geoana/plotting_utils.py:plot2Ddata"]}
{"id": "C83", "title": "plot2Ddata draws level lines for scalar and vector data", "statement": "With level=True both vec=False and vec=True should succeed. FINDING: with vec=True it never does (TypeError, after the filled contours and streamlines are drawn). Also, figname together with ax always fails (NameError).", "quantifier": "every option dictionary", "why_tests_cant": "The claim ranges over every history of assignments and calls; a test exercises a handful of them.", "anchors": ["geoana/plotting_utils.py:plot2Ddata"]}
{"id": "C84", "title": "Batch evaluation is pointwise evaluation", "statement": "Evaluating any field on an array of points gives at each point the value obtained by evaluating that point alone, also for the masked evaluations (spheres, loop, prism kernels, charge density).  For the harmonic and transient whole-space sources with an array of frequencies (times) of any shape and points of any shape (..., 3), the result has shape frequency.shape + xyz.shape and its entry [i, j, c] is component c of the field at frequency[i] and at the point xyz[j]; a tuple of three arrays means the stacked array; a last axis other than 3 is a ValueError.", "quantifier": "every array of points", "why_tests_cant": "The claim ranges over a continuum of real inputs; a test samples finitely many points with a tolerance.", "anchors": ["geoana/gravity.py:Sphere", "geoana/em/static/sphere.py:ElectrostaticSphere", "geoana/em/static/wholespace.py:CircularLoopWholeSpace", "geoana/kernels/potential_field_prism.py:_prism_f", "geoana/em/static/freespace.py:MagneticPrism.magnetic_flux_density"]}
{"id": "C85", "title": "Reference and vectorised transient formulas agree", "statement": "The formulas in tdem.reference agree with magnetic_field_vertical_magnetic_dipole and its time derivative: vertical field equal, radial field and both derivatives equal up to sign. FINDING: inside the reference file dhp_from_vert_4_74 is the time derivative of hp_from_vert_4_72, but dhz_from_vert_4_70 is minus the time derivative of hz_from_vert_4_69a.", "quantifier": "every time, medium, offset", "why_tests_cant": "The claim ranges over a continuum of real inputs; a test samples finitely many points with a tolerance.", "anchors": ["geoana/em/tdem/reference.py:hz_from_vert_4_69a", "geoana/em/tdem/reference.py:dhz_from_vert_4_70", "geoana/em/tdem/reference.py:hp_from_vert_4_72", "geoana/em/tdem/reference.py:dhp_from_vert_4_74"]}
{"id": "C86", "title": "Frequencies and times stay valid under any history", "statement": "After any sequence of assignments (accepted or rejected) frequency and time hold at most one-dimensional arrays without negative entries; valid arrays read back unchanged; an array with a negative entry is rejected with ValueError and changes nothing. FINDING: 0 is accepted although the message says the values must be greater than 0, and nan is accepted.", "quantifier": "every assignment history, every value", "why_tests_cant": "The claim ranges over every history of assignments and calls; a test exercises a handful of them.", "anchors": ["geoana/em/fdem/base.py:BaseFDEM.frequency", "geoana/em/tdem/base.py:BaseTDEM.time"]}
{"id": "C87", "title": "Subdividing a layer does not change the layered dipole's field", "statement": "Replacing a layer by two layers of the same material with the same total thickness leaves magnetic_field unchanged at all frequencies and receivers.", "quantifier": "every layered model, filter, frequency and receiver", "why_tests_cant": "The claim ranges over a continuum of real inputs; a test samples finitely many points with a tolerance.", "anchors": ["geoana/em/fdem/layered.py:MagneticDipoleLayeredHalfSpace.magnetic_field", "geoana/em/fdem/layered.py:MagneticDipoleLayeredHalfSpace.thickness"]}
{"id": "C88", "title": "plot2Ddata colour limits", "statement": "The filled contours are coloured between the limits given by clim, else by contourOpts vmin/vmax, else by the least and greatest finite value drawn (absolute values on a log scale), with ncontour+1 levels increasing from the lower to the upper limit; vmin/vmax are not passed on as keywords.", "quantifier": "every grid of values, option dictionary and scale", "why_tests_cant": "The claim ranges over a continuum of real inputs; a test samples finitely many points with a tolerance.", "anchors": ["geoana/plotting_utils.py:plot2Ddata"]}
{"id": "C89", "title": "Hill shading stays in 0..255", "statement": "With shade=True every shaded value lies in [0, 255], a flat area gets 255 (1 + sin altitude)/2, and turning the light by 360 degrees changes nothing.", "quantifier": "every gradient, azimuth and altitude", "why_tests_cant": "The claim ranges over a continuum of real inputs; a test samples finitely many points with a tolerance.", "anchors": ["geoana/plotting_utils.py:plot2Ddata"]}
{"id": "C90", "title": "Line-of-sight incidence", "statement": "At the reference point the line of sight makes the angle ref_incidence with the vertical; everywhere above the horizon it points to the satellite abeam of the point on a spherical earth; points further to the right of the track are seen at larger incidence.", "quantifier": "every satellite geometry, location and utm conversion", "why_tests_cant": "The claim ranges over a continuum of real inputs; a test samples finitely many points with a tolerance.", "anchors": ["geoana/earthquake/oksar.py:EarthquakeInterferogram.get_LOS_vector", "geoana/earthquake/oksar.py:EarthquakeInterferogram._ang_to_gc"]}
{"id": "C91", "title": "The Oksar solver computes Okada's surface displacement", "statement": "For every fault and every point whose coordinates the solver does not round, a returned displacement is Okada's (1985) closed form with the slips, dip and elastic constants given; the solver returns for every such point off the fault plane, and its rounded 2 pi and pi/180 are within 2e-14 and 1e-15.", "quantifier": "every fault, slip, elastic constants and point", "why_tests_cant": "The claim ranges over a continuum of real inputs; a test samples finitely many points with a tolerance.", "anchors": ["geoana/earthquake/oksar.py:Oksar._dc3d3"]}
{"id": "C92", "title": "Oksar displacements superpose", "statement": "Joining two adjacent faults adds their displacements (along strike and along dip), the displacement is linear in the two slips, and a centred fault gives mirror-image displacements at mirror-image points with the dip slip reversed.", "quantifier": "every fault, slip and point", "why_tests_cant": "The claim ranges over a continuum of real inputs; a test samples finitely many points with a tolerance.", "anchors": ["geoana/earthquake/oksar.py:Oksar._dc3d3"]}
{"id": "C93", "title": "The reflection coefficient is the one of the layered boundary-value problem", "statement": "For every passive stack r is the returned rTE if and only if the field e^{-lamb z} + r e^{lamb z} in the air continues, with E and E'/mu continuous, into solutions of the TE wave equation of every layer that decay at depth; a layer of air on top multiplies rTE by e^{-2 lamb h}, air alone reflects nothing.", "quantifier": "every frequency, wavenumber, number of layers, thickness, conductivity and permeability", "why_tests_cant": "The claim ranges over a continuum of real inputs; a test samples finitely many points with a tolerance.", "anchors": ["geoana/kernels/tranverse_electric_reflections.py:rTE_forward"]}
{"id": "C94", "title": "Rigid motions and mirror images", "statement": "Moving a source and its observation points together by any rotation, mirror image and shift moves every field with them: electric and gravity fields transform as vectors, magnetic fields as axial vectors, potentials of scalars do not change, gradients transform as tensors; sources over a half-space have this for horizontal motions.", "quantifier": "every isometry, shift, source and point", "why_tests_cant": "The claim ranges over a continuum of real inputs; a test samples finitely many points with a tolerance.", "anchors": ["geoana/em/base.py", "geoana/em/fdem/wholespace.py:ElectricDipoleWholeSpace", "geoana/em/fdem/wholespace.py:MagneticDipoleWholeSpace", "geoana/em/tdem/wholespace.py:ElectricDipoleWholeSpace", "geoana/em/static/wholespace.py:MagneticDipoleWholeSpace", "geoana/em/static/wholespace.py:CircularLoopWholeSpace", "geoana/em/static/wholespace.py:LineCurrentWholeSpace", "geoana/gravity.py:PointMass", "geoana/gravity.py:Sphere", "geoana/em/static/sphere.py", "geoana/em/static/halfspace.py", "geoana/em/tdem/halfspace.py"]}
{"id": "C95", "title": "Reciprocity", "statement": "Exchanging transmitter and receiver does not change the reading: for electric dipoles, magnetic dipoles, an electric with a magnetic dipole, transient electric dipoles, static magnetic dipoles, point currents, half-space electrodes (single and four-electrode) and magnetic dipoles on a half-space; the forces two masses exert on each other are opposite.", "quantifier": "every pair of sources, strengths, directions, locations and media", "why_tests_cant": "The claim ranges over a continuum of real inputs; a test samples finitely many points with a tolerance.", "anchors": ["geoana/em/fdem/wholespace.py:ElectricDipoleWholeSpace.electric_field", "geoana/em/fdem/wholespace.py:MagneticDipoleWholeSpace.magnetic_field", "geoana/em/tdem/wholespace.py:ElectricDipoleWholeSpace.electric_field", "geoana/em/static/wholespace.py:MagneticDipoleWholeSpace.magnetic_flux_density", "geoana/em/static/halfspace.py:DipoleHalfSpace.potential", "geoana/em/fdem/halfspace.py:MagneticDipoleHalfSpace.magnetic_field", "geoana/gravity.py:PointMass.gravitational_field"]}
{"id": "C96", "title": "Linearity in the source", "statement": "Every field is linear in the strength of its source, and for dipoles and plane waves in the moment vector, so that strength and direction enter only through their product; evaluations that fail do so independently of the strength.", "quantifier": "every source, medium, point, pair of strengths and coefficients", "why_tests_cant": "The claim ranges over a continuum of real inputs; a test samples finitely many points with a tolerance.", "anchors": ["geoana/em/fdem/wholespace.py", "geoana/em/tdem/wholespace.py", "geoana/em/static/wholespace.py", "geoana/em/static/halfspace.py", "geoana/em/static/sphere.py", "geoana/em/static/freespace.py:MagneticPrism", "geoana/gravity.py", "geoana/em/tdem/halfspace.py", "geoana/em/tdem/simple_functions.py"]}
{"id": "C97", "title": "Change of the unit of length", "statement": "Multiplying every length by a, with the medium adapted so that the induction number (or the diffusion number) is unchanged, multiplies each potential and field by the power of a that its dimension dictates, for every source. FINDINGS: this fails, so the code is dimensionally inconsistent, at three places: the vector potential of a circular loop inside the thin cone around its axis where a series is used (every point off the axis), the electric field outside a sphere in a uniform field, and the gradient and field of a prism at a point on one of its edges.", "quantifier": "every scale factor, source, medium, point and array of points", "why_tests_cant": "The claim ranges over a continuum of real inputs; a test samples finitely many points with a tolerance.", "anchors": ["geoana/em/fdem/wholespace.py", "geoana/em/fdem/halfspace.py", "geoana/em/fdem/layered.py", "geoana/em/tdem/wholespace.py", "geoana/em/tdem/halfspace.py", "geoana/em/tdem/simple_functions.py", "geoana/em/static/wholespace.py", "geoana/em/static/halfspace.py", "geoana/em/static/sphere.py", "geoana/em/static/freespace.py", "geoana/gravity.py"]}
{"id": "C98", "title": "Transient and harmonic solutions are transforms of one another", "statement": "The quasistatic harmonic answer at frequency f is the Fourier transform (time factor exp(i w t)) of the impulse response, that is of minus the time derivative of the answer to a steady source switched off at time 0: for the potential, electric, current, magnetic and flux fields of the electric dipole in a whole-space, for the circular loop on a half-space at its centre, and for the vertical magnetic field of the vertical dipole on a half-space. The transient plane wave is the impulse response of the harmonic plane wave at every point below the plane z = 0.", "quantifier": "every positive frequency, medium, source and observation point off the source", "why_tests_cant": "The claim ranges over a continuum of real inputs; a test samples finitely many points with a tolerance.", "anchors": ["geoana/em/fdem/wholespace.py", "geoana/em/fdem/halfspace.py", "geoana/em/fdem/simple_functions.py", "geoana/em/tdem/wholespace.py", "geoana/em/tdem/halfspace.py", "geoana/em/tdem/simple_functions.py"]}
{"id": "C99", "title": "Layered attributes accept exactly admissible values", "statement": "Assigning frequency or thickness of MagneticDipoleLayeredHalfSpace stores exactly numbers and one-dimensional arrays without negative entries (FINDING: 0 is accepted although the error message demands values greater than 0); thickness None is a half-space. Assigning sigma, mu or epsilon stores exactly a number (repeated for all layers), an array (n_layer,) or an array (n_layer, n_frequency) whose entries have non-negative imaginary parts and real parts > 0, >= mu_0, >= epsilon_0. An entry out of range raises ValueError, anything else TypeError, and the other attributes never change; so after construction and any history of assignments, accepted or refused, every stored entry is admissible.", "quantifier": "every value of any shape, every object and every history of assignments", "why_tests_cant": "The claim ranges over every history of assignments and calls; a test exercises a handful of them.", "anchors": ["geoana/em/fdem/layered.py:MagneticDipoleLayeredHalfSpace.frequency", "geoana/em/fdem/layered.py:MagneticDipoleLayeredHalfSpace.thickness", "geoana/em/fdem/layered.py:MagneticDipoleLayeredHalfSpace.sigma", "geoana/em/fdem/layered.py:MagneticDipoleLayeredHalfSpace.mu", "geoana/em/fdem/layered.py:MagneticDipoleLayeredHalfSpace.epsilon"]}
{"id": "C100", "title": "The transients start from the steady fields and die out", "statement": "For every positive conductivity and permeability and every point away from the source, as the time goes to 0 the fields returned for the transient electric dipole tend to those of the steady current element (its vector potential I l/(4 pi r), the gradient of its electric potential, the field of Biot and Savart), the field at the centre of the transient loop tends to n I/(2a) with rate of change of b equal to -3 n I/(sigma a^3), and the field of the half-space dipole tends to the one the static dipole class returns at the same point; the plane wave has not arrived off z = 0. As the time grows without bound every returned field and time derivative tends to 0. The returned time derivatives, integrated over all times, give back minus the steady fields.", "quantifier": "all conductivities, permeabilities, strengths, orientations and locations, all observation points off the source, and the limits of the time at 0 and at infinity", "why_tests_cant": "A limit is a statement about every sufficiently small or large time, and the formulas are differences of terms that individually blow up; tests evaluate at a few moderate times.", "anchors": ["geoana/em/tdem/wholespace.py:ElectricDipoleWholeSpace", "geoana/em/tdem/wholespace.py:TransientPlaneWave", "geoana/em/tdem/simple_functions.py:vertical_magnetic_field_horizontal_loop", "geoana/em/tdem/simple_functions.py:magnetic_field_vertical_magnetic_dipole", "geoana/em/tdem/halfspace.py:VerticalMagneticDipoleHalfSpace"]}
{"id": "C101", "title": "Arrays of points of any shape in the static, gravity and half-space methods", "statement": "For an array of observation points of any shape (..., 3), the static magnetic dipole and pole (in cartesian and cylindrical coordinates), the line and point currents, the half-space point current and current dipole and the point mass return arrays of shape (...,), (..., 3) or (..., 3, 3) whose entry at index j is the value at the point xyz[j]; the transient half-space dipole returns an array of shape time.shape + (..., 3) whose row [i, j] belongs to time[i] and xy[j], for points of two or three coordinates; the conversions between coordinate systems act row by row. Two electrode arrays M and N are broadcast against one another and the entry is V(M) - V(N). One point above the surface makes the whole half-space call raise ValueError; any other width of the last axis is a ValueError (IndexError for the conversions). The dipole helpers vector_distance, distance, dot_orientation and cross_orientation act point by point on (..., 3) arrays. FINDING (C101_dipole_helpers_reject_width_one_refuted): unlike the fields, vector_distance and distance do not reject rows of a single number x, but return the distance to the point (x, x, x).", "quantifier": "all sources, all numbers of axes and all lengths of the axes of the arrays of points and times, all indices", "why_tests_cant": "Broadcasting errors show only for particular combinations of axis lengths (a missing kept axis goes unnoticed when the numbers of points and components agree); tests use one or two shapes.", "anchors": ["geoana/em/static/wholespace.py:MagneticDipoleWholeSpace", "geoana/em/static/wholespace.py:MagneticPoleWholeSpace", "geoana/em/static/wholespace.py:LineCurrentWholeSpace", "geoana/em/static/halfspace.py:PointCurrentHalfSpace", "geoana/em/static/halfspace.py:DipoleHalfSpace", "geoana/gravity.py:PointMass", "geoana/em/tdem/halfspace.py:VerticalMagneticDipoleHalfSpace", "geoana/spatial.py:cylindrical_to_cartesian", "geoana/em/base.py:BaseDipole.distance"]}
{"id": "C102", "title": "Arrays of points of any shape in the prism, loop, wire and sphere methods", "statement": "For an array of observation points of any shape (..., 3), the gravitational and magnetic prisms (with the compiled kernels or the numpy ones), the circular loop (either coordinate system, any letter case of its name), the vector potential, flux density and field of a wire of any number of segments, the electrostatic and magnetostatic spheres in every mode and the gravitating sphere return arrays of shape (...,), (..., 3) or (..., 3, 3) whose entry at index j is the value the method gives for the single point xyz[j]: the reshape to rows, the boolean masks and the arrays reused from one segment to the next mix no two points. Where one point alone would raise, so does the array, with the same exception. A tuple (x, y, z) of arrays of one shape gives the same as the array of its points. Rows of another width than three raise ValueError. An unknown coordinate name makes the loop's vector potential raise AssertionError and its fields TypeError.", "quantifier": "all arrays of points of every number of axes and extents, all prisms, loops, wires, spheres and modes", "why_tests_cant": "A test tries a few shapes, mostly one row of points; the code reshapes, masks and reuses buffers, where an index error shows only for particular shapes and particular mixtures of inside and outside points.", "anchors": ["geoana/kernels/potential_field_prism.py", "geoana/gravity.py:Prism,Sphere", "geoana/em/static/freespace.py:MagneticPrism", "geoana/em/static/wholespace.py:CircularLoopWholeSpace", "geoana/em/static/wholespace.py:LineCurrentWholeSpace", "geoana/em/static/sphere.py:ElectrostaticSphere,MagnetostaticSphere", "geoana/shapes.py:BasePrism"]}
{"id": "C103", "title": "Arrays of frequencies and receivers over a half-space and a layered earth", "statement": "MagneticDipoleHalfSpace.magnetic_field, for n frequencies and receivers of any shape (..., k) with k >= 2 (only the first two columns are used), returns the array of shape (n, ..., 3) whose entry [f, j, c] is component c of the field at frequency f and receiver j, with every axis of length one removed; if there is none, that is exactly the documented array. MagneticDipoleLayeredHalfSpace.magnetic_field does the same for receivers of shape (m, 3), each entry being the field computed for that frequency, the properties at that frequency and that receiver alone; receivers below the surface, a bare (x, y, z), and rows of another width are refused. The squeezed shape alone does not tell one frequency at m receivers from m frequencies at one. FINDINGS: (C103_half_space_rejects_width_one_refuted) the half-space method accepts rows of a single number x and computes the field at (x, x); a scalar frequency with an array of receivers raises IndexError.", "quantifier": "all sources with a non-zero orientation, all numbers of frequencies, all shapes of receiver arrays, both field modes, any Bessel functions and any Hankel filter", "why_tests_cant": "Which axes survive the squeeze, and whether frequency and receiver axes are paired rather than crossed, depends on the axis lengths; tests use one or two shapes.", "anchors": ["geoana/em/fdem/halfspace.py:MagneticDipoleHalfSpace.magnetic_field", "geoana/em/fdem/layered.py:MagneticDipoleLayeredHalfSpace.magnetic_field"]}
{"id": "C104", "title": "What every assignable attribute accepts, stores and refuses", "statement": "For each class of the package (the layered dipole is in C99) a table gives a rule per attribute: a number in a range, a vector of a given length, a direction, samples, nodes, text, a date and so on. Assigning any value either stores exactly the converted value, which the attribute then reads, and changes no attribute whose definition does not involve it; or raises the documented exception (TypeError for what cannot be converted, ValueError for what is out of range or of the wrong shape) and changes nothing. Read-only attributes raise AttributeError. The rules decide every value and the table names every attribute. FINDINGS recorded in the table: a plane wave's orientation keeps any text other than X and Y; a single number as its orientation raises TypeError instead of ValueError because composing the message fails; spheres convert with a bare float(), so text raises ValueError where the other classes raise TypeError; pixel_size and the fault's shape raise TypeError for a wrong shape where the other vectors raise ValueError.", "quantifier": "every class, attribute, value (numbers including nan and infinities, text, arrays of any shape, None, other objects) and state of the object", "why_tests_cant": "There are some 150 class-attribute pairs and unboundedly many values; the tests assign a few good and bad values to a few attributes and do not look at the others.", "anchors": ["geoana/em/base.py", "geoana/gravity.py", "geoana/shapes.py", "geoana/em/static/wholespace.py", "geoana/em/static/sphere.py", "geoana/em/static/halfspace.py", "geoana/em/fdem/base.py:BaseFDEM", "geoana/em/tdem/base.py:BaseTDEM", "geoana/em/fdem/wholespace.py:HarmonicPlaneWave", "geoana/earthquake/oksar.py"]}
{"id": "C105", "title": "Calling a class binds, defaults and stores the arguments as documented", "statement": "Calling one of the package's classes with positional and keyword arguments returns only if no positional argument is surplus, none is given twice, every keyword is a documented argument and every required one is present; every attribute then reads what the call supplied for it by position, by name or by the documented default (None meaning the default where so documented), converted by the rule of that attribute; a prism's corners are ordered and the half-space source is at the surface. Conversely a correctly written call with acceptable values returns, or raises ValueError for the corner order or the source depth only; a malformed call raises, with TypeError when all values are acceptable. Every object returned is one the theorems about attributes and histories speak of. The default loop encloses one square metre. FINDING: the documented mass argument of the gravity sphere is accepted and silently ignored, since rho is assigned after it.", "quantifier": "every class, every list of positional arguments and every dictionary of keywords, with any values", "why_tests_cant": "Argument binding runs through up to five cooperative __init__ methods with **kwargs; the calls are unboundedly many and tests make a few of them.", "anchors": ["geoana/em/base.py:__init__", "geoana/gravity.py:__init__", "geoana/shapes.py:__init__", "geoana/em/static/wholespace.py:__init__", "geoana/em/static/sphere.py:__init__", "geoana/em/static/freespace.py:__init__", "geoana/em/fdem/base.py:__init__", "geoana/em/tdem/base.py:__init__", "geoana/em/fdem/halfspace.py:__init__", "geoana/em/fdem/wholespace.py:__init__", "geoana/em/tdem/wholespace.py:__init__", "geoana/earthquake/oksar.py:__init__"]}
{"id": "C106", "title": "The layered dipole's field is the digital Hankel transform of the textbook kernels", "statement": "For any digital filter, any receivers and any consistent ground, each component of the secondary magnetic field returned at a receiver beside the source is moment/(4 pi) times the filter's sum (1/rho) sum_i k0(b_i/rho) w0_i + k1(b_i/rho) w1_i, where k0 and k1 are the reflection coefficient of the ground at that frequency and wavenumber times e^{-lambda (z+h)} times the dipole kernels; and for every wavenumber the kernels times the Bessel functions J0 and J1 are exactly the derivative, along the dipole at the source and along the component's direction at the receiver, of the reflected cylindrical wave e^{-lambda (z+h)} J0(lambda rho). The reflection coefficient is that of the layered boundary-value problem.", "quantifier": "all filters, grounds, frequencies, receivers, source positions, orientations and moments; all wavenumbers > 0", "why_tests_cant": "The sum runs over any filter and any receiver set; the identity of the kernels is a differential identity at every point, and tests compare one filter with one other code.", "anchors": ["geoana/em/fdem/layered.py:MagneticDipoleLayeredHalfSpace.magnetic_field", "geoana/kernels/tranverse_electric_reflections.py:rTE_forward"]}
{"id": "C107", "title": "Rounding never costs more than a few units of roundoff in the formulas without cancellation", "statement": "Evaluated in binary floating point, distances, point-mass potentials and fields, the massive sphere's potential and field, the magnetic pole's field, point-current potentials and fields, and half-space electrode potentials differ from their exact values by a relative error of at most a fixed small multiple of 2^-53 (5 for distances, 8 and 20 for point masses, 51 for spheres, 22 for poles, 11 and 30 for point currents, 12 for half-space electrodes), component by component, however close to or far from the source the point is; for the sphere also where rounding the distance moves the point to the other side of the surface.", "quantifier": "all coordinates, masses, densities, radii, currents, resistivities, and every power function accurate to 8 units of roundoff", "why_tests_cant": "a test compares a few points with a tolerance; the bound must hold at every point, in particular arbitrarily close to the source or to the sphere's surface, where the branch taken can be the wrong one", "anchors": ["geoana/spatial.py:distance", "geoana/gravity.py:PointMass", "geoana/gravity.py:Sphere", "geoana/em/static/wholespace.py:MagneticPoleWholeSpace", "geoana/em/static/wholespace.py:PointCurrentWholeSpace", "geoana/em/static/halfspace.py:PointCurrentHalfSpace"]}
{"id": "C108", "title": "The logarithmic prism kernels in floating point", "statement": "With floating point coordinates the kernels prism_fzx and prism_fzy take the logarithm of positive numbers only; where the coordinate along the edge is not negative they are accurate to 10 units of roundoff (absolute plus relative). The exact kernels strictly decrease along an edge. FINDING (refuted): at negative edge coordinates the sum y + r cancels and is tested against exactly 0, so in the whole cone |x|, |z| <= 2^-27 |y| the result is log(-2 y), the value meant for points on the edge's line, independent of x and z: the error is unbounded, and the difference over the two ends of an edge, which is what gradients, magnetic fields and the wire's vector potential are built of, can get the wrong sign (edge from y = -256 to -1 at distance 2^-20 gives -32 ln 2 where the exact value is near 8 ln 2).", "quantifier": "all floating point coordinates; all logarithm functions accurate to 8 units of roundoff", "why_tests_cant": "the failing cone is thinner than 1e-8 radians: sampled points miss it, and that it is the whole cone, with no bound on the error, is a statement about all points", "anchors": ["geoana/kernels/_extensions/potential_field_prism.pyx:prism_fzx", "geoana/kernels/_extensions/potential_field_prism.pyx:prism_fzy", "geoana/kernels/potential_field_prism.py:_prism_fzx", "geoana/kernels/potential_field_prism.py:_prism_fzy"]}
{"id": "C109", "title": "A distant prism is a point mass at its location, and mirror images of prisms have mirrored fields", "statement": "Outside the sphere through a prism's corners its potential differs from the potential of a PointMass with the prism's mass at the prism's location by at most a^2/(r^2 - a^2) of the latter (a half the diagonal, r the distance to the location), and lies between G m/sqrt(r^2 + a^2) and G m r/(r^2 - a^2). At points opposite about the location the potentials are equal and the fields opposite. The potential and the field of a prism's mirror image in a coordinate plane at the mirrored point are the mirrored potential and field.", "quantifier": "all ordered corners, densities and points outside the prism", "why_tests_cant": "tests compare a prism with a point mass at a few distant points and a tolerance; the bound must hold at every distance and for every shape", "anchors": ["geoana/gravity.py:Prism", "geoana/gravity.py:PointMass", "geoana/shapes.py:BasePrism.location", "geoana/shapes.py:BasePrism.volume"]}
{"id": "C110", "title": "A distant current loop is a magnetic dipole of moment I pi a^2", "statement": "Outside the sphere through the loop (r > a) the flux density of CircularLoopWholeSpace differs from that of MagneticDipoleWholeSpace with moment I pi a^2, the same orientation, location and mu by at most mu |m|/(4 pi r^3) times 33 x/(1-x)^3, x = (a/r)^2 (plus 1e-11 inside the series branch about the axis); off that branch the vector potentials differ by at most mu |m|/(4 pi r^2) times 3 x/(1-x). As a loop of fixed moment shrinks, its flux density at a fixed point off the axis cone tends to the dipole's.", "quantifier": "all radii, currents, unit orientations, locations, permeabilities and all points outside the sphere", "why_tests_cant": "a test compares the two classes at a few points with a tolerance; the bound must hold for every radius and distance", "anchors": ["geoana/em/static/wholespace.py:CircularLoopWholeSpace.magnetic_flux_density", "geoana/em/static/wholespace.py:CircularLoopWholeSpace.vector_potential", "geoana/em/static/wholespace.py:MagneticDipoleWholeSpace.magnetic_flux_density", "geoana/em/static/wholespace.py:MagneticDipoleWholeSpace.vector_potential"]}
{"id": "C111", "title": "A prism is the superposition of point masses, or of dipoles, at every point outside it", "statement": "At every point off the closed prism, including points on the planes of its faces and the lines of its edges where the closed form kernels hit 0*log(0) and atan guards, Prism.gravitational_potential, gravitational_field and gravitational_gradient are the integrals over the prism of those of PointMass with the prism's density; MagneticPrism.scalar_potential, magnetic_field and magnetic_flux_density with magnetisation k n are the integrals of those of MagneticDipoleWholeSpace with moment k and orientation n. At each such point the field is the gradient of the potential, the gradient tensor is the Jacobian of the field and trace free, and the magnetic field gradient is the Jacobian of the magnetic field.", "quantifier": "all ordered prisms, densities, magnetisations, permeabilities and all points off the closed prism", "why_tests_cant": "a test can compare with quadrature at a few points; the identity must hold at every point, including the measure zero set of face planes where the formulas switch branch", "anchors": ["geoana/gravity.py:Prism", "geoana/gravity.py:PointMass", "geoana/em/static/freespace.py:MagneticPrism", "geoana/em/static/wholespace.py:MagneticDipoleWholeSpace", "geoana/kernels/potential_field_prism.py"]}
{"id": "C112", "title": "The fields of a distant prism are those of a point mass, or of a dipole, at its location", "statement": "With a half the prism's diagonal, r the distance to its location and a < r: Prism.gravitational_field differs from PointMass.gravitational_field with the prism's mass at its location by at most 3 (a/r)^2/(1-a/r)^4 of the latter; the gradient tensors, applied to any vector, differ by at most 12 (a/r)^2/(1-a/r)^5 of the latter; MagneticPrism.magnetic_field and magnetic_flux_density with magnetisation k n differ from those of MagneticDipoleWholeSpace with moment k times the volume, orientation n, at the prism's location by at most the same fraction.", "quantifier": "all ordered prisms, densities, magnetisations, permeabilities and all points outside the circumscribed sphere", "why_tests_cant": "tests compare a prism with a point source at a few distant points and a tolerance; the rate and the constant must hold at every distance, direction and aspect ratio", "anchors": ["geoana/gravity.py:Prism", "geoana/gravity.py:PointMass", "geoana/em/static/freespace.py:MagneticPrism", "geoana/em/static/wholespace.py:MagneticDipoleWholeSpace", "geoana/shapes.py:BasePrism"]}
{"id": "C113", "title": "Calling the electrode classes stores exactly what was passed, or raises", "statement": "PointCurrentWholeSpace, PointCurrentHalfSpace and DipoleHalfSpace take rho, current (default 1) and location(s) (default the origin; for the dipole (-1,0,0) and (1,0,0); None means the default) by position or by name. A call with surplus, repeated, unknown or missing arguments raises TypeError. Otherwise the outcome is determined: a rho that is not a number (or one-entry array) raises TypeError, rho=0 ZeroDivisionError, negative or infinite rho ValueError; a current that float() refuses raises TypeError; a location that is no array raises TypeError, one that is not three coordinates or, in a half-space, lies above z=0, ValueError; and else the call returns an object whose rho (for the whole space also sigma=1/rho), current and location(s) read the passed values. FINDING: PointCurrentWholeSpace accepts the numpy number rho=np.float64(0.0), with sigma=inf, and an (n,3) array of any number of locations, of which it reports the first (for n=0 reading location raises IndexError).", "quantifier": "all positional and keyword arguments, of every Python value", "why_tests_cant": "tests construct a few electrodes; the claim is about every combination of positional, named, default, missing and unusable arguments, and about which exception each gives", "anchors": ["geoana/em/static/wholespace.py:PointCurrentWholeSpace", "geoana/em/static/halfspace.py:PointCurrentHalfSpace", "geoana/em/static/halfspace.py:DipoleHalfSpace"]}
{"id": "C114", "title": "Gauss and Ampere laws: fluxes count exactly the sources enclosed", "statement": "The flux of PointMass.gravitational_field out of any sphere is -4 pi G times the mass inside (0 if the mass is outside), wherever the centre of the sphere; for gravity.Sphere it is -4 pi G times the density times the enclosed volume for concentric spheres of any radius, and all or nothing for every sphere that does not cut the ball. The current density of PointCurrentWholeSpace has flux I or 0; that of a LineCurrent is +I around its last node and -I around its first. The current of a PointCurrentHalfSpace crossing the lower half of any sphere centred on the surface above it is I when the electrode is inside and 0 otherwise, and for DipoleHalfSpace with surface electrodes it is the current of A less that of B. The flux of MagneticDipoleWholeSpace out of any sphere is 0, that of MagneticPoleWholeSpace is mu times its moment; the spheres in a uniform field have no net flux. The flux density of a circular loop integrated along its whole axis is mu I, and that of a straight LineCurrent tends to mu I / (2 pi rho) around it as its ends recede.", "quantifier": "all sources, centres, radii, and polar axes through the source; all loops; all straight wires and observation points off their line", "why_tests_cant": "a surface integral over every sphere around or beside a source involves infinitely many evaluations; tests compare pointwise formulas", "anchors": ["geoana/gravity.py:PointMass.gravitational_field", "geoana/gravity.py:Sphere.gravitational_field", "geoana/em/static/wholespace.py:PointCurrentWholeSpace.current_density", "geoana/em/static/wholespace.py:LineCurrentWholeSpace", "geoana/em/static/wholespace.py:MagneticDipoleWholeSpace.magnetic_flux_density", "geoana/em/static/wholespace.py:MagneticPoleWholeSpace.magnetic_flux_density", "geoana/em/static/wholespace.py:CircularLoopWholeSpace.magnetic_flux_density", "geoana/em/static/halfspace.py:PointCurrentHalfSpace.current_density", "geoana/em/static/halfspace.py:DipoleHalfSpace.current_density", "geoana/em/static/sphere.py:ElectrostaticSphere", "geoana/em/static/sphere.py:MagnetostaticSphere"]}
{"id": "C115", "title": "What lies deep is exponentially hidden from the layered reflection coefficient", "statement": "For every stack of layers with real conductivities >= 0 and the permeability of the air, any number of layers, every frequency and wavenumber lamb > 0: replacing everything below a depth z changes rTE_forward by at most e^{-2 lamb z} (and by at most e^{-2 lamb z} times the change that would be seen with the cover removed); ending the ground inside a layer whose bottom is at depth z costs at most e^{-2 lamb z}; the coefficient lies in the lower half of the disc with diameter [-1, 0]; its modulus is at most omega mu_0 sigma_max / (2 lamb)^2; and the coefficient of a conductor is within 2 lamb / sqrt(omega mu_0 sigma) of -1, up to e^{-2 lamb h} for a layer of thickness h on top of anything. Consequently, whatever the Hankel filter, changing the conductivities below a depth d changes every component of the secondary magnetic_field of a quasistatic MagneticDipoleLayeredHalfSpace over such a ground by at most the filtered sum in which every wavenumber is attenuated by e^{-lamb (z + h + 2 d)}, the attenuation of a full reflection at depth d.", "quantifier": "all stacks of any number of layers with real non-negative conductivities and mu = mu_0, all frequencies and wavenumbers, all ways of changing the deeper part", "why_tests_cant": "the bound compares every pair of grounds that agree down to some depth, with arbitrarily many layers above and below; tests compare a few models at a few wavenumbers", "anchors": ["geoana/kernels/tranverse_electric_reflections.py:_rTE_forward", "geoana/kernels/_extensions/_rTE.cpp:funcs::rTE"]}
{"id": "C116", "title": "Harmonic fields are attenuated by the skin depth and lose exactly the power they heat the ground with", "statement": "For every medium with positive frequency, conductivity and permeability and every dipole in it: along every ray from the dipole the amplitudes of the electric and magnetic fields fall at least like exp(-|Im k| r), so in the quasistatic mode every field is at least e times smaller one skin_depth further out. The mean power flow (1/2) Re(E x H*) of the magnetic dipole and of the plane wave (and of the electric dipole in the quasistatic mode) has divergence -(1/2) sigma |E|^2 at every point off the source; the power through every sphere about the dipole is the textbook expression, is positive, and the difference between two spheres is the heat produced between them; the plane wave carries its power straight down. FINDING: without quasistatic=True the ElectricDipoleWholeSpace divides by sigma instead of sigma_hat, and its fields create the power (1/2) omega^2 mu eps / sigma |H|^2 from nothing.", "quantifier": "all media, dipoles, orientations, observation points, rays, radii and polar axes", "why_tests_cant": "Energy conservation is a relation between the derivatives of two complex fields at every point and between surface and volume integrals over all spheres; tests compare a few values with reference values", "anchors": ["geoana/em/fdem/wholespace.py:ElectricDipoleWholeSpace", "geoana/em/fdem/wholespace.py:MagneticDipoleWholeSpace", "geoana/em/fdem/wholespace.py:HarmonicPlaneWave", "geoana/em/fdem/base.py:skin_depth"]}
{"id": "C117", "title": "The closed-form dipole on a half-space is the layered theory without layers", "statement": "For every MagneticDipoleHalfSpace on a conducting ground (any frequency, conductivity, permittivity, quasistatic flag, orientation and moment), the secondary field that the closed formulas of magnetic_field return is the one the reflection coefficient of rTE_forward for that ground alone prescribes: along every line from the dipole, the order-0 Hankel transform of the vertical component is (moment/4 pi) oz lambda rTE(lambda) for every wavenumber lambda > 0 (on lines across the horizontal moment), and the order-1 transform of r times the horizontal component across the line is (moment/4 pi) o_t rTE(lambda); Hx of the x dipole plus Hy of the y dipole is Hz of the z dipole at every receiver, which fixes the third horizontal component; and, if iv and kv satisfy Nicholson's integral for I_n K_n (n = 1, 2), the horizontal field of a vertical dipole and the vertical field of a horizontal one are the inverse Hankel integrals of lambda^2 rTE(lambda) J1(lambda r).", "quantifier": "all half-spaces, dipoles, directions, distances and wavenumbers", "why_tests_cant": "The two implementations share no formula: one is a closed form in exp(-ikr) and Bessel products, the other a recursion over layers; that they agree is an identity between improper integrals over all distances or all wavenumbers", "anchors": ["geoana/em/fdem/halfspace.py:MagneticDipoleHalfSpace.magnetic_field", "geoana/kernels/tranverse_electric_reflections.py:rTE_forward"]}
{"id": "C118", "title": "A polygonal wire agrees with the dipole, the infinite line and the circular loop in their limits", "statement": "The fields of LineCurrentWholeSpace agree, with explicit error bounds, with the other sources where physics says they must: (a) at distance rho from a straight wire, magnetic_flux_density is mu I/(2 pi rho) around the wire up to a relative error (rho/distance along the wire to the nearer end)^2/2; (b) at a distance r >= L from the middle of a straight wire of length L, magnetic_flux_density and electric_field are those of ElectricDipoleWholeSpace (fdem) at frequency 0 with the same current, length, orientation and medium, up to relative errors 41/4 (L/r)^2 and 21 (L/r)^2; (c) a closed wire of any shape inside a ball of radius a has, at distance r >= 2a from its centre, the flux density and vector potential of MagneticDipoleWholeSpace with moment I times the wire's vector area, up to mu I/(4 pi) times 41 a^2 length/r^4 and 3 a^2 length/r^3; (d) the closed regular polygon with N sides inscribed in a CircularLoopWholeSpace has the loop's flux density and vector potential up to an error proportional to 1/N with an explicit factor in the radius and the distance to the loop (plus the series error next to the axis).", "quantifier": "all wires, segment directions, currents, media, observation points, numbers of nodes and of polygon sides", "why_tests_cant": "Each bound ranges over all geometries, over wires with any number of nodes, and over a limit; a test can compare a few configurations at a few sizes", "anchors": ["geoana/em/static/wholespace.py:LineCurrentWholeSpace.magnetic_flux_density", "geoana/em/static/wholespace.py:LineCurrentWholeSpace.vector_potential", "geoana/em/static/wholespace.py:LineCurrentWholeSpace.electric_field", "geoana/em/static/wholespace.py:CircularLoopWholeSpace.magnetic_flux_density", "geoana/em/static/wholespace.py:CircularLoopWholeSpace.vector_potential", "geoana/em/static/wholespace.py:MagneticDipoleWholeSpace.magnetic_flux_density", "geoana/em/fdem/wholespace.py:ElectricDipoleWholeSpace.electric_field", "geoana/em/fdem/wholespace.py:ElectricDipoleWholeSpace.magnetic_flux_density"]}
{"id": "C119", "title": "The flux linking two magnetic sources is reciprocal", "statement": "For two of the static magnetic sources in the same medium the mutual inductance does not depend on which one carries the current. For two polygonal wires without common points, for a circular loop and a wire, and for two circular loops in any relative position: the line integral of the vector_potential returned by the first source along the second is mu I1 M and that of the second along the first is mu I2 M, with the same M. For a magnetic dipole and a wire or a loop: the line integral of the dipole's vector_potential along the wire or loop, times its current, is the dipole's moment vector dotted with the magnetic_flux_density the wire or loop returns at the dipole.", "quantifier": "all pairs of sources, positions, orientations, currents, numbers of nodes of the wires", "why_tests_cant": "Each side is a line integral of a field evaluated along a curve, and the identity ranges over all pairs of curves; a test can compare two quadratures for a few pairs", "anchors": ["geoana/em/static/wholespace.py:LineCurrentWholeSpace.vector_potential", "geoana/em/static/wholespace.py:LineCurrentWholeSpace.magnetic_flux_density", "geoana/em/static/wholespace.py:CircularLoopWholeSpace.vector_potential", "geoana/em/static/wholespace.py:CircularLoopWholeSpace.magnetic_flux_density", "geoana/em/static/wholespace.py:MagneticDipoleWholeSpace.vector_potential"]}
{"id": "C120", "title": "A prism's potential and field are correct on its faces, edges and corners too", "statement": "At every point of space, including points on a face, an edge or a corner of the prism and on the planes and lines that extend them (where the closed forms contain 0*log(0) and 0/0 and the code takes guarded branches), gravity.Prism's gravitational_potential is continuous, its gravitational_field is continuous in each component, and the returned field is the gradient of the returned potential.  MagneticPrism's scalar_potential is continuous everywhere.", "quantifier": "every prism (no ordering of the corners assumed), density, magnetization, gravitational constant and observation point", "why_tests_cant": "tests evaluate isolated points; continuity and differentiability on the measure-zero sets where guarded branches are taken are statements about all neighbouring points at once", "anchors": ["geoana/gravity.py: Prism.gravitational_potential, gravitational_field", "geoana/kernels/potential_field_prism.py: prism_f, prism_fz", "geoana/kernels/_extensions/potential_field_prism.pyx", "geoana/em/static/freespace.py: MagneticPrism.scalar_potential", "geoana/shapes.py: BasePrism._eval_def_int"]}
{"id": "C121", "title": "Jumps of the gradient and of the magnetic field across a prism's face", "statement": "At a point in the interior of a face with outward normal n, gravitational_gradient has limits from inside and from outside; the outer one exceeds the inner one by exactly 4*pi*G*rho*n n^T (so only the normal-normal component jumps) and the value returned on the face is their mean.  MagneticPrism.magnetic_field has one-sided limits whose difference is (n.M) n (tangential H is continuous), and the value on the face is their mean.  magnetic_flux_density has one-sided limits with the same normal component and tangential jump -mu0 n x M.  FINDING (C121_normal_flux_is_continuous_refuted): on the face itself magnetic_flux_density adds the whole magnetization to the mean H, so its normal component exceeds the common limit from both sides by mu0 (n.M)/2 and is not continuous there.", "quantifier": "every ordered prism, face point off the edges, density, magnetization and permeability", "why_tests_cant": "a jump relates limits from both sides; finitely many evaluations near a face cannot establish a limit", "anchors": ["geoana/gravity.py: Prism.gravitational_gradient", "geoana/em/static/freespace.py: MagneticPrism.magnetic_field, magnetic_flux_density", "geoana/kernels/potential_field_prism.py: prism_fzz, prism_fzx, prism_fzy"]}
{"id": "C122", "title": "One inverse-square law across the gravity, magnetic and resistivity classes", "statement": "The classes agree with each other.  For any density, MagneticPrism's scalar_potential and magnetic_field are the gravity Prism's gravitational_field and gravitational_gradient applied to the magnetization and divided by 4*pi*G*rho, at every point (Poisson's relation; the sign is the one geoana's MagneticPrism uses).  MagneticDipoleWholeSpace.magnetic_field is the PointMass gradient applied to the moment; MagneticPoleWholeSpace.magnetic_field and PointCurrentWholeSpace.current_density are multiples of the PointMass field, PointCurrentWholeSpace.potential of its potential.  Outside an ElectrostaticSphere-type sphere the secondary potential is that of a point dipole of moment 4*pi*k*R^3*F0 at the centre, k=(c1-c0)/(c1+2c0), and minus the gradient of the returned total potential is the primary field plus the field MagneticDipoleWholeSpace returns for that moment.", "quantifier": "every prism, density, magnetization, moment, orientation, resistivity, current, sphere, location and observation point off the source", "why_tests_cant": "each class is tested against its own formula; that classes written separately agree at all points for all parameters is a statement relating two implementations", "anchors": ["geoana/gravity.py: Prism", "geoana/gravity.py: PointMass", "geoana/em/static/freespace.py: MagneticPrism", "geoana/em/static/wholespace.py: MagneticDipoleWholeSpace, MagneticPoleWholeSpace, PointCurrentWholeSpace", "geoana/em/static/sphere.py: ElectrostaticSphere, MagnetostaticSphere"]}
{"id": "C123", "title": "Inside a prism the returned values are the Newtonian integrals with the cavity terms", "statement": "At a point inside the prism, cut out any cube centred at the point that fits inside and tile the rest with six boxes.  The integral of the PointMass potential over the rest is the returned gravitational_potential minus G*rho*d^2*(12 ln(2+sqrt 3) - 2 pi) (d the half edge, so it converges to the returned value); the integral of the PointMass field is exactly the returned gravitational_field for every cube; that of the gradient is the returned gravitational_gradient plus (4/3) pi G rho I.  For MagneticPrism the integrals of the dipoles' potentials and fields are the returned scalar_potential and magnetic_field + M/3, and the returned magnetic_flux_density is mu0 (integral + 2/3 M).", "quantifier": "every prism, density, magnetization, interior point and cube about it inside the prism", "why_tests_cant": "an improper triple integral with a singularity at the observation point cannot be evaluated by a test, and the closed forms take other branches of atan inside", "anchors": ["geoana/gravity.py: Prism.gravitational_potential, gravitational_field, gravitational_gradient", "geoana/em/static/freespace.py: MagneticPrism.scalar_potential, magnetic_field, magnetic_flux_density", "geoana/kernels/potential_field_prism.py", "geoana/shapes.py: BasePrism"]}
{"id": "C124", "title": "A prism attracts: bounds from the distances of its points", "statement": "For a non-negative density: if no point of the prism is farther than far from the observation point, gravitational_potential is at least G*M/far, at every observation point including on and inside the prism; with a positive density it is positive everywhere.  If every point of the prism lies at least h >= 0 ahead of the station along a unit direction w, the component of gravitational_field along w is at least G*M*h/far^3 (so a station on or outside a face is pulled towards the prism).  If every point is at least near away from a station outside, the potential, the norm of the field and the gradient applied to v are at most G*M/near, G*M/near^2 and 2*G*M*|v|/near^3.  M is the returned mass.", "quantifier": "every ordered prism, density, observation point and bounds on the distances", "why_tests_cant": "inequalities between a sum of 24 logarithm and arctangent terms and M/r for all prisms and stations; the sum cancels heavily, and a test can only sample", "anchors": ["geoana/gravity.py: Prism.mass, gravitational_potential, gravitational_field, gravitational_gradient"]}
{"id": "C125", "title": "Late transients follow the textbook power laws", "statement": "As time goes on the transients settle on their power laws, with these coefficients.  ElectricDipoleWholeSpace (time domain): sqrt(t)*vector_potential -> I*ds*sqrt(mu*sigma)/(4*pi^1.5) along the dipole, t^1.5*electric_field -> I*ds*mu^1.5*sigma^0.5/(12*pi^1.5) along the dipole at every point, t^1.5*magnetic_field -> I*ds*(mu*sigma)^1.5/(24*pi^1.5) times orientation x offset, t^2.5*magnetic_field_time_derivative -> -3/2 times that.  TransientPlaneWave: t^1.5*electric_field -> -E0*sqrt(mu*sigma)*z/(2*sqrt(pi)) along the orientation, sqrt(t)*magnetic_flux_density is independent of depth.  vertical_magnetic_field_horizontal_loop: t^1.5*h_z -> n*I*a^2*(mu*sigma)^1.5/(30*sqrt(pi)), t^2.5*dh_z/dt -> -n*I*a^2*(mu*sigma)^1.5/(20*sqrt(pi)).  Half-space vertical dipole: t^1.5*h_z -> m*(mu*sigma)^1.5/(30*pi^1.5) at every distance, t^2*h_r -> m*r*(mu*sigma)^2/(128*pi), and the time derivatives accordingly.  The loop and the dipole of moment n*I*pi*a^2 have the same late law.", "quantifier": "every conductivity and permeability > 0, every source strength, orientation, location, radius, number of turns and every point off the source; limits as t grows without bound", "why_tests_cant": "a power law is a statement about arbitrarily late times; at any tested time the sampled value differs from it, and in floating point the late values cancel catastrophically", "anchors": ["geoana/em/tdem/wholespace.py: ElectricDipoleWholeSpace, TransientPlaneWave", "geoana/em/tdem/simple_functions.py: vertical_magnetic_field_horizontal_loop, vertical_magnetic_field_time_deriv_horizontal_loop, magnetic_field_vertical_magnetic_dipole, magnetic_field_time_deriv_magnetic_dipole", "geoana/em/tdem/halfspace.py: VerticalMagneticDipoleHalfSpace"]}
{"id": "C126", "title": "Transient fields conserve energy", "statement": "For the time-domain ElectricDipoleWholeSpace and TransientPlaneWave the power flow E x H computed from electric_field and magnetic_field satisfies Poynting's theorem at every point off the source and every time > 0: its divergence is minus the heat sigma*|E|^2 minus the rate of change of the stored energy mu*|H|^2/2.  The plane wave carries power away from the plane z=0 on both sides, with E x H = (0,0,z*E0^2*sigma/(2*pi*t^2)*exp(-mu*sigma*z^2/(2t))).  Through the sphere of radius r about the electric dipole flows the closed form (I*ds)^2/(6*pi*sigma*r^3)*(erf u - 2u/sqrt(pi)*exp(-u^2))*(erf u - (4u^2+2)*u/sqrt(pi)*exp(-u^2)), u=theta*r; it starts outward from the steady value (I*ds)^2/(6*pi*sigma*r^3) and ends inward, t^3 times it tending to -(I*ds)^2*mu^3*sigma^2*r^3/(108*pi^2).", "quantifier": "every source strength, unit orientation, location, conductivity and permeability > 0, time > 0, point off the source, sphere radius and frame of polar coordinates on the sphere", "why_tests_cant": "a local conservation law is a differential identity, the flux an integral over a sphere, and the reversal a limit: none is a finite set of samples", "anchors": ["geoana/em/tdem/wholespace.py: ElectricDipoleWholeSpace.electric_field, magnetic_field", "geoana/em/tdem/wholespace.py: TransientPlaneWave.electric_field, magnetic_field"]}
{"id": "C127", "title": "At low induction numbers the layered ground responds linearly, and without induction only through its permeabilities", "statement": "For every stack of layers with real conductivities >= 0 and the permeability of the air, any number of layers, every frequency and wavenumber lamb > 0: rTE_forward differs from the linear response -i omega mu_0/(2 lamb)^2 * sum_k sigma_k (e^{-2 lamb top_k} - e^{-2 lamb bottom_k}) by at most 2 (omega mu_0 sigma_max/(2 lamb)^2)^2; the weights add up to 1, so the apparent conductivity lies between the smallest and the largest one. The secondary magnetic_field of a quasistatic MagneticDipoleLayeredHalfSpace is the filtered linear response up to the corresponding filtered quadratic term. rTE_forward depends on frequency and conductivity only through their product. For any positive permeabilities, as the frequency goes to 0 the coefficient tends to the unique solution of the boundary-value problem without induction, whatever the conductivities, and an insulating ground has exactly that coefficient at every frequency.", "quantifier": "all numbers of layers, all conductivities >= 0, thicknesses >= 0, frequencies and wavenumbers > 0, all permeabilities > 0 (static limit and scaling), all receivers, sources and digital filters (field)", "why_tests_cant": "The linear (low induction number) interpretation is used for every conductivity meter reading; a test compares a few grounds and cannot bound the remainder for all stacks.", "anchors": ["geoana/kernels/tranverse_electric_reflections.py:_rTE_forward", "geoana/kernels/_extensions/_rTE.cpp:rTE", "geoana/em/fdem/layered.py:MagneticDipoleLayeredHalfSpace.magnetic_field"]}
{"id": "C128", "title": "A sphere is the superposition of the point masses in it, and its charges make its potential", "statement": "For every gravity Sphere (radius > 0, any density and location) and every observation point - inside, outside, on the surface or at the centre - the returned gravitational_potential and gravitational_field are the integrals, over the ball, of what PointMass returns for its points (Newton's shell theorem); outside the same holds for gravitational_gradient. For every ElectrostaticSphere, the charge_density returned on its surface makes, by Coulomb's law integrated over the surface, exactly the secondary potential returned at every point.", "quantifier": "all radii > 0, densities, conductivities with sigma_sphere + 2 sigma_background /= 0, primary fields, locations, shell thicknesses dr, all observation points", "why_tests_cant": "The class promises the attraction of a solid body; a test compares a handful of points with formulas copied from the same textbook and cannot evaluate the volume integral for every point.", "anchors": ["geoana/gravity.py:Sphere.gravitational_potential", "geoana/gravity.py:Sphere.gravitational_field", "geoana/gravity.py:Sphere.gravitational_gradient", "geoana/gravity.py:PointMass", "geoana/em/static/sphere.py:ElectrostaticSphere.charge_density", "geoana/em/static/sphere.py:ElectrostaticSphere.potential"]}
{"id": "C129", "title": "At low induction numbers the half-space dipole and the central loop read the ground conductivity", "statement": "For every MagneticDipoleHalfSpace with N = omega mu_0 |sigma_hat| r^2 <= 1 at horizontal distance r, the returned secondary field is, component by component, the primary field times i omega mu_0 sigma_hat r^2 / 4, with an error of at most N sqrt N times the primary (vertical, coplanar), 3/10 of that (transverse), and the radial secondary of a horizontal dipole is at most N sqrt N times its moment term. Hence the apparent conductivity 4/(omega mu_0 r^2) Im(Hs/Hp) formed from the two calls secondary=True and secondary=False is within 4 sigma sqrt N (horizontal coplanar) or 6/5 sigma sqrt N (vertical coplanar) of sigma (quasistatic). The same expansion holds for vertical_magnetic_field_horizontal_loop with secondary=True.", "quantifier": "all frequencies, conductivities, permittivities (first part), moments, orientations, azimuths and distances with N <= 1; all loop radii, currents, turn numbers with N <= 1", "why_tests_cant": "The error must stay under the stated multiple of N sqrt N for every parameter combination below N = 1; the closed forms cancel 1/u^2 terms there, so sampled points show neither the bound nor its order.", "anchors": ["geoana/em/fdem/halfspace.py:MagneticDipoleHalfSpace.magnetic_field", "geoana/em/fdem/simple_functions.py:vertical_magnetic_field_horizontal_loop"]}
{"id": "C130", "title": "The fault model returns the displacement of a dislocation in an elastic half-space", "statement": "For every pair of Lame constants, dip, fault extent, slip and station off the fault plane, the displacement of the surface returned by the solver behind Oksar.displacement_vector is Volterra's dislocation integral: its component in direction j is the integral, over the fault rectangle, of the slip times the traction that a unit point force at the station in direction j exerts on the fault plane in an elastic half-space with a free surface (times 2 pi over the code's constant 6.283185307179586). The point-force fields used are those of unit forces: in equilibrium below the surface, with a traction-free surface, carrying the force -e_j through every hemisphere, and bounded by K/r.", "quantifier": "all Lame constants with mu, lambda+mu, lambda+2mu non-zero; all dips with negative sine in the code convention, fault lengths and widths below the surface, slips with a non-zero component, stations off the fault plane that the solver does not round", "why_tests_cant": "The claim is an identity between a double integral of elastic tractions and the sum of closed forms at four corners, for all parameters; tests compare a few numbers with a published table.", "anchors": ["geoana/earthquake/oksar.py:Oksar._dc3d3", "geoana/earthquake/oksar.py:Oksar.displacement_vector"]}
{"id": "C131", "title": "The central-loop transients keep their accuracy in floating point at every time", "statement": "In IEEE double arithmetic without overflow or underflow, for every accurate library erf, exp and power, vertical_magnetic_field_horizontal_loop and vertical_magnetic_flux_time_deriv_horizontal_loop return the value of their formula to a small multiple of the unit roundoff at every time. This holds, within 250 unit roundoffs, while the diffusion length is at most half the loop radius. FINDING (refuted at late times): both formulas subtract nearly equal terms, and from the time 2^25 mu sigma a^2 on every returned value is 0 or more than five times too large, for every loop, ground and library.", "quantifier": "all positive times, conductivities, permeabilities and radii, all currents and turns, all correctly rounded arithmetic with 53 bits and any library erf, exp and power within 4 ulp", "why_tests_cant": "The error of a cancelling formula depends on every input and on the library; a test at a few moderate times sees none of it.", "anchors": ["geoana/em/tdem/simple_functions.py:vertical_magnetic_field_horizontal_loop", "geoana/em/tdem/simple_functions.py:vertical_magnetic_flux_time_deriv_horizontal_loop", "geoana/em/tdem/base.py:theta"]}
{"id": "C132", "title": "Values derived from what a user sets are the set values up to a few roundings", "statement": "In IEEE double arithmetic without overflow or underflow: a resistivity that is set reads back within three unit roundoffs, and assigning the read value again, any number of times, changes nothing at all; an object whose conductivity was set settles after one such assignment. A stored orientation has length one to six unit roundoffs. A mass assigned to a sphere reads back within 29. Angular frequency, quasi-static skin depth, peak time, diffusion distance and theta are the exact values to at most 13. FINDING (refuted): a resistivity need not read back exactly (49 Ohm m does not). FINDING (refuted): without the quasi-static approximation the skin depth of every medium with sigma <= 2^-28 omega epsilon is returned as 0.", "quantifier": "all positive resistivities, conductivities, frequencies, times, permeabilities and permittivities, all orientations other than 0, all radii and masses, every number of repeated assignments, every library power within 4 ulp", "why_tests_cant": "The round trip holds or fails number by number; no test visits all 2^53 significands, and the repetition is unbounded.", "anchors": ["geoana/em/base.py:BaseEM.rho", "geoana/em/base.py:BaseDipole.orientation", "geoana/gravity.py:Sphere.mass", "geoana/em/fdem/base.py:skin_depth", "geoana/em/fdem/base.py:omega", "geoana/em/tdem/base.py:peak_time", "geoana/em/tdem/base.py:diffusion_distance", "geoana/em/tdem/base.py:theta"]}
{"id": "C133", "title": "Arrays handed out by attributes cannot put an object into a state its setters refuse", "statement": "Attributes return the stored arrays, so a caller can write into them. For a half-space electrode (PointCurrentHalfSpace) no sequence of such writes, nor of writes to the array that was passed in, moves the two electrodes that make the field. FINDING (refuted): source.location[i] = x is accepted, also for a location above the surface; it changes the location the object reports while the field keeps coming from the old one. FINDING (refuted): obj.frequency[i] = x or obj.time[i] = x with negative x is accepted by every frequency- or time-domain object, and leaves it with samples that the setter refuses.", "quantifier": "all accepted assignments, all states of the heap, all sequences of in-place writes by the caller to arrays other than the private node arrays", "why_tests_cant": "Aliasing shows only after a particular history of writes; the claim is about every history.", "anchors": ["geoana/em/static/halfspace.py:PointCurrentHalfSpace.location", "geoana/em/fdem/base.py:BaseFDEM.frequency", "geoana/em/tdem/base.py:BaseTDEM.time", "geoana/em/static/wholespace.py:PointCurrentWholeSpace.location"]}
{"id": "C134", "title": "The gravity gradient of a prism is accurate in floating point at every station; far away the relative accuracy is lost", "statement": "Computed in binary64, each diagonal entry of Prism.gravitational_gradient differs from the exact one by at most 400 * 2^-53 * G * |density|, at every station, on faces, edges and corners too; so the computed gradient satisfies Poisson's equation to 1200 * 2^-53 * G * |density| inside and outside. FINDING (refuted): the relative error of a distant prism is not bounded. Where every point of the prism is d to 2 d away along each axis, d at least 1 m, and d^3 is at least 2^60 times the volume, each component of the computed gravitational_field is either 0 or more than seven times too large, and so is every diagonal entry of the computed gradient that is not 0 exactly.", "quantifier": "all boxes, densities and stations; every library logarithm and arctangent that returns floats accurate to 4 units in the last place", "why_tests_cant": "Rounding errors depend on the bits of the inputs; a bound over all of them, and a loss at all far stations, cannot be sampled.", "anchors": ["geoana/gravity.py:Prism.gravitational_gradient", "geoana/gravity.py:Prism.gravitational_field", "geoana/shapes.py:BasePrism._eval_def_int", "geoana/kernels/potential_field_prism.py:_prism_fz", "geoana/kernels/potential_field_prism.py:_prism_fzz"]}
{"id": "C135", "title": "Coordinate conversions and back return the point in floating point", "statement": "Computed in binary64, a point converted from Cartesian to cylindrical coordinates and back is returned to within 48 * 2^-53 times its distance from the axis (its height exactly); from cylindrical to Cartesian and back the radius is returned to a relative 13 * 2^-53 and the angle to 48 * 2^-53; through spherical coordinates a point is returned to within 100 * 2^-53 times its distance from the origin. Cylindrical components of vectors are turned by the azimuth to within 27 * 2^-53 of their horizontal length and come back to within 81 * 2^-53. FINDING (refuted): a coordinate that is 0 does not come back as 0. However accurate the library's functions are, every point of the y axis other than the origin leaves the plane x = 0, every point of the negative x axis leaves the plane y = 0, and through spherical coordinates every point of the plane z = 0 leaves it; so no relative error bound holds coordinate by coordinate.", "quantifier": "all points and vectors with three components; every library cosine, sine and arctan2 accurate to 4 units in the last place (arctan2 returning floats)", "why_tests_cant": "Rounding errors depend on the bits of the inputs, and the claim about zero coordinates is about every library.", "anchors": ["geoana/spatial.py:cylindrical_to_cartesian", "geoana/spatial.py:cartesian_to_cylindrical", "geoana/spatial.py:spherical_to_cartesian", "geoana/spatial.py:cartesian_to_spherical"]}
{"id": "C136", "title": "Electric and magnetic dipoles are dual, and the impedances give back the conductivity", "statement": "In the same medium, the magnetic field of a harmonic magnetic dipole with moment current * length is the current density of the electric dipole, its electric field is -i omega mu times the electric dipole's magnetic field and its potential is i omega mu times the electric dipole's. The plane wave has E = Z (H x down) with Z = omega mu / k, so the apparent resistivity |E|^2 / (omega mu |H|^2) computed from electric_field and magnetic_field is 1/sigma at every point (1/|sigma + i omega epsilon| with displacement currents) and the phase of Z lies in (0, 45] degrees, 45 exactly without displacement currents. At distance r from a magnetic dipole E = Z g (H x r_hat) with an explicit g(ikr); if quasistatic, |g - 1| <= 1/(2 (r/skin depth)^2), so far away the dipole field is locally a plane wave. The quasistatic electric dipole has the same impedance. FINDING (refuted): with displacement currents the electric dipole's fields never have that ratio where H is not zero.", "quantifier": "all media with positive frequency, conductivity and permeability, both values of the quasistatic flag, all strengths, orientations, locations and observation points off the source", "why_tests_cant": "The relations tie three classes together at every point, frequency and medium; tests compare single values of one class.", "anchors": ["geoana/em/fdem/wholespace.py:ElectricDipoleWholeSpace", "geoana/em/fdem/wholespace.py:MagneticDipoleWholeSpace", "geoana/em/fdem/wholespace.py:HarmonicPlaneWave", "geoana/em/fdem/base.py:wavenumber"]}
{"id": "C137", "title": "The harmonic central-loop response keeps its accuracy in floating point at every frequency", "statement": "Computed in binary64, vertical_magnetic_field_horizontal_loop returns, for real conductivity and permeability, a quadrature (imaginary) component with a relative error of at most 7100 (1 + (skin depth / radius)^4) * 2^-53 and an in-phase component with an absolute error of at most 1000 (1 + skin depth / radius) * 2^-53 times the primary field, secondary or total. FINDING (refuted): the accuracy is lost at low frequency. Once the skin depth is 8192 radii or more, the returned quadrature component, which is what a conductivity meter reads, is exactly 0 or more than 3 times too large, whatever the library's exponential returns.", "quantifier": "all positive frequencies, conductivities, permeabilities and radii, all currents and turns, both values of secondary; every library complex square root, exponential and power accurate to a few units in the last place", "why_tests_cant": "The cancellation in 3 - (3 + 3ika - k^2 a^2) exp(-ika) depends on the bits of every intermediate result; tests sample frequencies where it is harmless.", "anchors": ["geoana/em/fdem/simple_functions.py:vertical_magnetic_field_horizontal_loop"]}
{"id": "C138", "title": "The vertical transient of a dipole on a half-space keeps its accuracy in floating point at every time", "statement": "Computed in binary64, the vertical components of magnetic_field_vertical_magnetic_dipole and magnetic_field_time_deriv_magnetic_dipole agree with the exact formulas to a relative 75 * 2^-53 while t <= mu sigma r^2 / 64, r the horizontal offset. FINDING (refuted): at late times the accuracy is lost. From t = 2^25 mu sigma r^2 on (0.04 s for r = 1 m and 1 mS/m), whatever the library's erf and exp return, both results are exactly 0 or more than 5 times too large, while the exact values are not 0. (Between the two the exact field changes sign; nothing is claimed there.)", "quantifier": "all positive times, conductivities and permeabilities, all offsets other than 0, all moments; every library power, erf and exp accurate to 4 units in the last place", "why_tests_cant": "The cancellation between the erf and exp terms depends on the bits of every intermediate result; the tests compare with a reference that cancels in the same way.", "anchors": ["geoana/em/tdem/simple_functions.py:magnetic_field_vertical_magnetic_dipole", "geoana/em/tdem/simple_functions.py:magnetic_field_time_deriv_magnetic_dipole", "geoana/em/tdem/halfspace.py:VerticalMagneticDipoleHalfSpace"]}
{"id": "C139", "title": "Many skin depths away the ground is a mirror", "statement": "In the quasistatic case, x skin depths (1/sqrt(pi f mu_0 sigma)) away from a dipole on a half-space, the returned total field is twice the horizontal free-space field, plus algebraic terms in 1/x and 1/x^2, plus an explicit remainder: per moment/(4 pi r^3), vertical o_z 9i/x^2 + o_r 3(1-i)/x, transverse -o_t (2 + 3i/x^2), radial o_r (4 + 12i/x^2) - o_z 3(1-i)/x, with remainders that are exponentially small in x or at most 264/x^2. So for x >= 1 the vertical total field is at most 269/x of the dipole field, and the horizontal secondary field differs from the horizontal primary field by at most 269/x of it. The total field at the centre of a loop x skin depths wide is (n I/a) (-3i/(2 x^2)) up to an exponentially small remainder.", "quantifier": "all dipole moments, orientations and positions, all azimuths and distances, all positive frequencies, conductivities and permeabilities, quasistatic; every pair of Bessel functions iv, kv whose products have Nicholson's integral; for the loop all radii, currents and turns", "why_tests_cant": "The claim bounds an error for every distance and frequency without end; a test evaluates the formula at a few points where scipy's Bessel functions do not yet overflow.", "anchors": ["geoana/em/fdem/halfspace.py:MagneticDipoleHalfSpace.magnetic_field", "geoana/em/fdem/simple_functions.py:vertical_magnetic_field_horizontal_loop"]}
{"id": "C140", "title": "The dipole on a half-space returns its field at every distance, without overflow or underflow", "statement": "FINDING (refuted): MagneticDipoleHalfSpace.magnetic_field multiplies iv(n, alpha) by kv(n, alpha), of which the first overflows and the second underflows, although their product is an ordinary number. In floating point with infinities and nan, quasistatic case, from 2000 skin depths on (2000 / sqrt(pi f mu_0 sigma), total or secondary field): both horizontal components returned for a vertical dipole, and the vertical component returned for a horizontal dipole, are exactly 0 or nan, whatever the rounding, the other library functions and iv do, while the exact component is at least 4/x of the dipole field moment/(4 pi r^3), x the number of skin depths.", "quantifier": "all moments, both fields, all positions, azimuths and distances from 2000 skin depths on, all positive frequencies, conductivities and permeabilities; every rounding that keeps 0, every kv that returns 0 or nan where both parts of K_n are below 2^-1075, every computed alpha within 5 percent of the exact one, every iv and every other library function", "why_tests_cant": "The tests stay where iv and kv are representable; the failure needs large distances at high frequencies and follows from how the library treats values below the smallest float.", "anchors": ["geoana/em/fdem/halfspace.py:MagneticDipoleHalfSpace.magnetic_field"]}
{"id": "C141", "title": "Vertical coplanar coils and the central loop read positive conductivities, and never too much, at every frequency", "statement": "In the quasistatic case, for a dipole on a half-space read by the transverse component (vertical coplanar coils), the apparent conductivity 4/(omega mu_0 r^2) Im(Hs/Hp) of the returned secondary field Hs and the primary field Hp (total less secondary) lies strictly between 0 and the conductivity of the ground at every frequency and distance, Re(Hs/Hp) > 0, and |Hs - Hp| <= |Hp|. For the centre of a horizontal loop the same holds of -Hs, with Re(Hs/Hp) < 0, and the total field never exceeds the primary field in modulus. Horizontal coplanar coils are different: five or more skin depths apart their apparent conductivity is negative.", "quantifier": "all dipole moments, orientations and positions, all azimuths and distances, all positive frequencies, conductivities and permeabilities, quasistatic; all loop radii and all non-zero currents times turns", "why_tests_cant": "The sign of an oscillating profile must hold for every frequency; a test samples some frequencies and says nothing of those between and beyond.", "anchors": ["geoana/em/fdem/halfspace.py:MagneticDipoleHalfSpace.magnetic_field", "geoana/em/fdem/simple_functions.py:vertical_magnetic_field_horizontal_loop"]}
{"id": "C142", "title": "FINDING: the quadrature of the vertical half-space dipole is rounding noise at low frequency; elsewhere its error is bounded", "statement": "In binary floating point with a faithful complex square root, exponential, cube and powers, in the quasistatic case, both parts of the vertical magnetic field (secondary or total) that a vertical dipole on a half-space returns at horizontal distance r differ from the exact formula by at most 42000 (1 + (skin depth/r)^2) 2^-53 of the primary field. FINDING: this bound cannot be made relative. Where the skin depth is 8192 distances or more, the returned quadrature component is 0 or more than 7 times too large, however good the exponential and the cube are, because 9 - (9 + ...)exp(-ikr) cancels to fourth order: at 1 Hz over 0.0001 S/m this is every receiver within 5 m of the dipole.", "quantifier": "all positive frequencies, conductivities and permeabilities, all moments and source and receiver positions with non-zero offset, vertical orientation, quasistatic, secondary and total; all library square roots, exponentials, cubes and powers within their error bounds", "why_tests_cant": "A statement about the rounding errors of every run of the formula, and a refutation for a whole range of media; a test compares single values, usually with another float formula.", "anchors": ["geoana/em/fdem/halfspace.py:MagneticDipoleHalfSpace.magnetic_field", "geoana/em/fdem/base.py:BaseFDEM.sigma_hat"]}
{"id": "C143", "title": "The rotation between two normals is accurate in floating point unless they are opposite", "statement": "In binary floating point, for every norm and dot product accurate to a few units in the last place, rotation_matrix_from_normals(v0, v1) returns a proper rotation for all non-zero v0 and v1, and it takes the unit vector n0 of v0 to within 800 2^-53 / |n0 + n1| of the unit vector n1 of v1; up to a right angle to within 600 2^-53. For the targets [0,0,1] and [1,0,0], which the loops and wires use, no vector of floats is lost: every v0 is taken to within 2^-18 of the axis, those pointing the other way included. FINDING: the documented promise that v0 is taken to v1 fails for opposite normals. rotation_matrix_from_normals([1,3,7], [-3,-9,-21]) returns a rotation about the z axis, which keeps the third component 7 and misses n1 by more than 1.8 (of at most 2), whatever the dot product: the cross product of the rounded normals is 2^-57 of rounding noise along z, which is above the tolerance 1e-20, so that the branch for opposite normals is not taken.", "quantifier": "all non-zero v0 and v1, all tolerances in (0, 2^-60], all library norms and dot products within their error bounds", "why_tests_cant": "A bound over all pairs of directions; tests rotate a few random pairs, which are practically never within 1e-16 of opposite, and the pairs of opposite vectors they try (v1 = -v0) happen to cancel exactly.", "anchors": ["geoana/spatial.py:rotation_matrix_from_normals"]}
{"id": "C144", "title": "The flux density of a straight wire is accurate in floating point beside it, and lost beyond its ends", "statement": "In binary floating point, LineCurrentWholeSpace.magnetic_flux_density of a straight wire [[0,0,0],[L,0,0]] returns at every station off its line a vector within 200 2^-53 mu |I| / (2 pi rho) of the exact flux density, rho the distance from the line; at every station beside the wire (0 <= x <= L) it is within 200 2^-53 of it relatively, at every distance. FINDING: beyond the ends relative accuracy is lost. In the cones of half angle 2^-28 around the extensions of the wire the result is exactly the zero vector although the flux density is not zero, because the two cosines whose difference is taken round to the same number.", "quantifier": "all lengths L > 0, currents and permeabilities, all stations off the line with floating point coordinates, all library norms, dot products, sines, cosines and arctangents within their error bounds", "why_tests_cant": "A bound over all stations and lengths; tests evaluate wires at a few stations beside them and compare with a tolerance relative to the largest value.", "anchors": ["geoana/em/static/wholespace.py:LineCurrentWholeSpace.magnetic_flux_density"]}
{"id": "C145", "title": "Static dipole fields and the gravity gradient of a point mass are accurate in floating point, but the gradient need be neither symmetric nor zero where it should be", "statement": "In binary floating point, at every station off the source: MagneticDipoleWholeSpace.magnetic_flux_density returns a vector within 920 2^-53 of the exact one relatively to its length; vector_potential returns a vector within 160 2^-53 |m| mu |orientation| / (4 pi r^2) of the exact one; every entry of PointMass.gravitational_gradient is within 310 2^-53 G |m| / r^3 of the exact one. FINDING: the entries of the gradient are not accurate relatively to themselves. At (3, 3, 3) from the mass the diagonal of the gradient is zero, and the computed first entry is not, for every mass but zero. FINDING: the gradient is a symmetric tensor, and the computed one need not be: with a correctly rounded cube, for a unit mass at the origin and the station (2, 5, 3), entries [0, 1] and [1, 0] differ, because (3 a) b and (3 b) a round differently.", "quantifier": "all moments, orientations, permeabilities, masses, locations and stations off the source, all library powers and dot products within their error bounds", "why_tests_cant": "A bound over all stations and sources; tests compare a few stations with a tolerance, and compare the gradient tensor with the same formula.", "anchors": ["geoana/em/static/wholespace.py:MagneticDipoleWholeSpace.magnetic_flux_density", "geoana/em/static/wholespace.py:MagneticDipoleWholeSpace.vector_potential", "geoana/gravity.py:PointMass.gravitational_gradient"]}
{"id": "C146", "title": "The potential of a sphere is accurate in floating point at every station, but its secondary part is lost far away", "statement": "In binary floating point, ElectrostaticSphere.potential and MagnetostaticSphere.potential return for field='total', 'primary' and 'secondary' numbers within 290 2^-53 |p - location| |primary field| of the exact ones at every station, inside, outside, and where rounding the distance moves the station to the other side of the surface. FINDING: the secondary potential is not accurate relatively to itself. From 2^19 radii on it is returned as exactly zero although it is not zero, because it is computed as the difference of the total and the primary potential, which round to the same number.", "quantifier": "all spheres with positive radius and positive conductivities (permeabilities), all primary fields and stations, all library powers and products within their error bounds", "why_tests_cant": "A bound over all stations, in particular arbitrarily close to the surface, where the branch taken can be the wrong one, and arbitrarily far away; tests compare a grid of stations around the sphere with the same formula.", "anchors": ["geoana/em/static/sphere.py:ElectrostaticSphere.potential", "geoana/em/static/sphere.py:MagnetostaticSphere.potential"]}
{"id": "C147", "title": "Voltages of electrodes in a half-space in floating point: bounded error, exact reciprocity and polarity, and loss far away", "statement": "In binary floating point, DipoleHalfSpace.potential at M is within 15 2^-53 (|V_A(M)| + |V_B(M)|) of the exact potential, and the voltage between M and N within 18 2^-53 of the sum of the four absolute pole potentials. PointCurrentHalfSpace.potential of a current at A measured at M is the same floating point number as that of the current at M measured at A. Exchanging A and B, or M and N, changes the sign of the result and nothing else. FINDING: far from a pair of electrodes at the surface the potential is returned as exactly zero although it is not zero: this happens at every station at a distance x across the pair (in the direction of the pair) once their separation is at most 2^-55 x.", "quantifier": "all resistivities, currents, electrode and station locations in the ground", "why_tests_cant": "A bound and equalities over all electrode layouts; tests compare a few stations with a tolerance and never exchange electrodes.", "anchors": ["geoana/em/static/halfspace.py:DipoleHalfSpace.potential", "geoana/em/static/halfspace.py:PointCurrentHalfSpace.potential"]}
{"id": "C148", "title": "The circular loop in floating point: never outside the domain of the elliptic integrals, but infinite near the wire", "statement": "In binary floating point, CircularLoopWholeSpace never calls the elliptic integrals with a parameter outside [0, 1], at any station. Where the squared least distance from the wire is at least 2^-52 of the squared greatest, the axial flux density is a number, and so is the vector potential away from the axis. FINDING: at stations nearer to the wire than 2^-27 radii but not on it (7 nanometres for a loop of 1 m) the parameter rounds to 1, the first elliptic integral is infinite there, and vector_potential and the axial component of magnetic_flux_density are returned as infinities with the sign of the current, outside the loop as well as inside, although the exact values are finite.", "quantifier": "all radii, currents, permeabilities and stations, in the cylindrical frame of the loop; every power within its error bound and every library whose elliptic integrals are numbers on [0, 1), 1 and infinity at 1", "why_tests_cant": "A statement about all stations, in particular those next to the wire; tests evaluate loops on a coarse grid.", "anchors": ["geoana/em/static/wholespace.py:CircularLoopWholeSpace.vector_potential", "geoana/em/static/wholespace.py:CircularLoopWholeSpace.magnetic_flux_density"]}
{"id": "C149", "title": "The field of a sphere is accurate in floating point off its surface, and wrong by half the primary field on it", "statement": "In binary floating point, ElectrostaticSphere.electric_field and MagnetostaticSphere.magnetic_field return for field='total', 'primary' and 'secondary' vectors within 1700 2^-53 |primary field| (1 + radius / d^2) of the exact ones, d being the distance from the centre, at every station whose distance differs from the radius by more than 6 2^-53 of the radius. FINDING: at the surface there is no such bound. The station (1, 2^-28, 0) is outside the unit sphere, but its distance rounds to 1 and the field inside is returned; for a sphere at least twice as conductive as the background the normal component is too small by at least half the primary field.", "quantifier": "all spheres with positive radius and positive conductivities (permeabilities), all primary fields, all stations off the surface, all library powers and products within their error bounds; the finding: all conductivities at least twice the background, all libraries", "why_tests_cant": "A bound over all stations, arbitrarily close to the surface, where the branch depends on the rounding of the distance; tests compare a grid of stations with the same formula.", "anchors": ["geoana/em/static/sphere.py:ElectrostaticSphere.electric_field", "geoana/em/static/sphere.py:MagnetostaticSphere.magnetic_field"]}
