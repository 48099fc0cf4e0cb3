{"id": "C01", "title": "kep_to_cart puts the body on the conic", "statement": "kep_to_cart([a,e,i,omega,Omega,nu], mu) returns a position whose length is p/(1+e cos nu), where p=a(1-e^2) for an ellipse, a(e^2-1) for a hyperbola (a given positive) and 2a for a parabola (a = periapsis distance).", "quantifier": "every mu>0, a>0, e>=0, every orientation and every true anomaly with 1+e cos nu > 0", "why_tests_cant": "continuum of elements; tests sample a few grids and compare to 3-6 decimals", "anchors": ["pyorb/kepler.py:kep_to_cart", "pyorb/kepler.py:orbital_distance", "pyorb/kepler.py:orbit_total_angular_momentum", "pyorb/kepler.py:parabolic_total_angular_momentum"]}
{"id": "C02", "title": "kep_to_cart has the right energy (vis-viva)", "statement": "The state returned by kep_to_cart has specific energy |v|^2/2 - mu/|r| equal to -mu/(2a) (ellipse), +mu/(2a) (hyperbola) or 0 (parabola).", "quantifier": "every valid element set (as C01)", "why_tests_cant": "as C01; no test checks the energy", "anchors": ["pyorb/kepler.py:kep_to_cart"]}
{"id": "C03", "title": "kep_to_cart has the right angular momentum and orbital plane", "statement": "r x v of the state returned by kep_to_cart has length sqrt(mu p) and points along (sin i sin Omega, -sin i cos Omega, cos i); position and velocity stay in that plane.", "quantifier": "every valid element set (as C01)", "why_tests_cant": "continuum; tests look at signs of components of a few states", "anchors": ["pyorb/kepler.py:kep_to_cart", "pyorb/kepler.py:euler_rotation_matrix"]}
{"id": "C04", "title": "kep_to_cart has the right eccentricity vector", "statement": "The Laplace-Runge-Lenz (eccentricity) vector of the state returned by kep_to_cart has length e and points to the periapsis direction given by (i, omega, Omega); nu is the angle from it to r, growing in the direction of motion.", "quantifier": "every valid element set (as C01)", "why_tests_cant": "continuum", "anchors": ["pyorb/kepler.py:kep_to_cart"]}
{"id": "C05", "title": "Documented orientation conventions", "statement": "i=0 keeps the orbit in the x-y plane and motion runs from +x to +y; periapsis lies on +x for omega=Omega=0; raising i rotates the state about x taking +y to +z; raising Omega rotates the state about z taking +x to +y; changing omega rotates position and velocity inside the orbital plane in the direction of motion.", "quantifier": "every element set and every rotation angle", "why_tests_cant": "the README rules are equivariance laws over all angles; tests pick 45/90/180 degrees", "anchors": ["README.md", "pyorb/kepler.py:kep_to_cart", "pyorb/kepler.py:euler_rotation_matrix"]}
{"id": "C06", "title": "cart_to_kep returns the physical elements with the documented ranges", "statement": "For a state with r x v != 0, cart_to_kep returns e = length of the eccentricity vector, a = |mu/(2 energy)| > 0 (energy != 0), inclination = angle between r x v and +z in [0,pi], and omega, Omega, nu in [0,2pi].", "quantifier": "every mu>0 and every state with r x v != 0", "why_tests_cant": "continuum incl. measure-zero branch boundaries", "anchors": ["pyorb/kepler.py:cart_to_kep"]}
{"id": "C07", "title": "cart_to_kep inverts kep_to_cart (regular orbits)", "statement": "cart_to_kep(kep_to_cart(k)) = k when e_lim < e, e != 1, i_lim < i < pi - i_lim and the angles are in [0,2pi).", "quantifier": "every such k, every mu>0 (elliptic and hyperbolic, nu inside the asymptotes)", "why_tests_cant": "round trip over a 6-dimensional continuum; tests use 12000 grid points with e<1", "anchors": ["pyorb/kepler.py:cart_to_kep", "pyorb/kepler.py:kep_to_cart"]}
{"id": "C08", "title": "cart_to_kep canonicalises planar and circular orbits as documented", "statement": "For i=0 or pi the returned Omega is 0 and omega is omega+Omega (prograde) resp. omega-Omega (retrograde) modulo 2pi; for e=0 omega is 0 and nu absorbs omega; for both, nu absorbs everything; the other elements are returned unchanged.", "quantifier": "every planar and/or circular element set", "why_tests_cant": "branch boundaries of measure zero", "anchors": ["README.md", "pyorb/kepler.py:cart_to_kep"]}
{"id": "C09", "title": "kep_to_cart inverts cart_to_kep", "statement": "kep_to_cart(cart_to_kep(x)) = x.", "quantifier": "every mu>0 and every state with r x v != 0 and energy != 0 that is regular, exactly planar or exactly circular", "why_tests_cant": "continuum of states including all angle quadrants", "anchors": ["pyorb/kepler.py:cart_to_kep", "pyorb/kepler.py:kep_to_cart"]}
{"id": "C10", "title": "Parabolic orbits survive the round trip", "statement": "cart_to_kep(kep_to_cart([q,1,...])) returns q as its first element (README: for parabolas a is the periapsis distance).", "quantifier": "every q>0, orientation and anomaly", "why_tests_cant": "tests never convert a parabola back", "anchors": ["README.md", "pyorb/kepler.py:cart_to_kep"]}
{"id": "C11", "title": "Conversion functions do not modify their arguments", "statement": "After cart_to_kep(x) and kep_to_cart(k) the caller's array has the shape and contents it had before the call.", "quantifier": "every input, both degrees settings, elliptic/parabolic/hyperbolic, success or exception", "why_tests_cant": "side effects on the argument are never asserted", "anchors": ["pyorb/kepler.py:cart_to_kep", "pyorb/kepler.py:kep_to_cart"]}
{"id": "C12", "title": "Conversion functions validate their input", "statement": "cart_to_kep and kep_to_cart raise TypeError for anything that is not an ndarray and ValueError when axis 0 is not of length 6; otherwise the output has exactly the shape of the input.", "quantifier": "every input type and shape", "why_tests_cant": "error branches for all shapes", "anchors": ["pyorb/kepler.py:cart_to_kep", "pyorb/kepler.py:kep_to_cart"]}
{"id": "C13", "title": "Vectorised conversions are column-wise and never expose uninitialised memory", "statement": "Column j of cart_to_kep(X, mu), kep_to_cart(K, mu), equi_to_kep and kep_to_equi depends only on column j of the input (and mu_j), equals the conversion of that column alone, and does not depend on the prior contents of the buffers obtained from np.empty.", "quantifier": "every number of columns, every mix of elliptic/parabolic/hyperbolic/planar/circular columns, every arithmetic (also rounded floats), every initial memory content", "why_tests_cant": "masked assignment code is right only if the masks cover every column for every mix of cases", "anchors": ["pyorb/kepler.py:cart_to_kep", "pyorb/kepler.py:kep_to_cart", "pyorb/kepler.py:equi_to_kep", "pyorb/kepler.py:kep_to_equi"]}
{"id": "C14", "title": "degrees=True only changes units", "statement": "Calling a conversion with degrees=True equals converting angular inputs to radians, calling with degrees=False and converting angular outputs to degrees.", "quantifier": "every input of cart_to_kep, kep_to_cart, kep_to_equi, equi_to_kep and the six anomaly conversions", "why_tests_cant": "all inputs", "anchors": ["pyorb/kepler.py"]}
{"id": "C15", "title": "true_to_eccentric and eccentric_to_true are inverse (ellipse)", "statement": "For 0<=e<1 both compositions are the identity on [0,2pi), results lie in [0,2pi), and cos nu=(cos E-e)/(1-e cos E), sin nu=sqrt(1-e^2) sin E/(1-e cos E).", "quantifier": "every e in [0,1) and every angle", "why_tests_cant": "continuum incl. the tan singularity at pi", "anchors": ["pyorb/kepler.py:true_to_eccentric", "pyorb/kepler.py:eccentric_to_true"]}
{"id": "C16", "title": "true_to_eccentric and eccentric_to_true are inverse (parabola, hyperbola)", "statement": "For e>=1 and every true anomaly inside the asymptotes (incoming and outgoing leg) eccentric_to_true(true_to_eccentric(nu,e),e) equals nu modulo 2pi.", "quantifier": "every e>=1, every admissible nu", "why_tests_cant": "tests use only the outgoing leg with E in [0,pi/2]", "anchors": ["pyorb/kepler.py:true_to_eccentric", "pyorb/kepler.py:eccentric_to_true"]}
{"id": "C17", "title": "eccentric_to_mean is Kepler's equation and is invertible", "statement": "eccentric_to_mean computes E-e sin E, E+E^3/3 or e sinh E-E; as a function of E it is strictly increasing and onto the reals, so every mean anomaly has exactly one eccentric anomaly.", "quantifier": "every e>=0 and every E", "why_tests_cant": "existence/uniqueness over a continuum", "anchors": ["pyorb/kepler.py:eccentric_to_mean"]}
{"id": "C18", "title": "The Laguerre solver always terminates with a meaningful status", "statement": "laguerre_solve_kepler returns after at most max(1,max_iter) iterations; if it reports fewer than max_iter iterations the residual test |f(E)|>=tol is false at the returned E; if the initial guess already meets tol it returns it with 0 iterations.", "quantifier": "every guess, M, e, tol, max_iter, degree and every arithmetic, including NaN and infinities", "why_tests_cant": "loop over all inputs; non-termination cannot be tested", "anchors": ["pyorb/kepler.py:laguerre_solve_kepler"]}
{"id": "C19", "title": "The Laguerre step is well defined and moves towards the root", "statement": "For e!=1, e>=0 and degree>=1 no iteration divides by zero, every iterate is finite, and every step moves E strictly towards the exact solution of Kepler's equation.", "quantifier": "every finite E, M, e>=0 with e!=1, degree>=1", "why_tests_cant": "division by zero on a measure-zero set is invisible to tests", "anchors": ["pyorb/kepler.py:laguerre_solve_kepler"]}
{"id": "C20", "title": "mean_to_eccentric solves Kepler's equation to the requested accuracy (ellipse)", "statement": "For 0<=e<1, if the solver stops before max_iter, the returned E satisfies |E - e sin E - M| < tol and lies within tol/(1-e) of the unique exact solution; for e=0 it returns M itself.", "quantifier": "every M, 0<=e<1, tol>0, solver options", "why_tests_cant": "accuracy for all M,e; tests use a grid up to e=0.99", "anchors": ["pyorb/kepler.py:mean_to_eccentric", "pyorb/kepler.py:laguerre_solve_kepler", "pyorb/kepler.py:_get_kepler_guess"]}
{"id": "C21", "title": "mean_to_eccentric is exact for parabolas", "statement": "For e=1 mean_to_eccentric returns the exact solution of E+E^3/3=M.", "quantifier": "every real M, positive or negative", "why_tests_cant": "closed form over a continuum", "anchors": ["pyorb/kepler.py:mean_to_eccentric"]}
{"id": "C22", "title": "mean_to_eccentric solves Kepler's equation for hyperbolas", "statement": "For e>1 and every real M (incoming leg M<0 included) mean_to_eccentric returns a finite E with |e sinh E - E - M| < tol unless max_iter is exhausted.", "quantifier": "every e>1 and every real M", "why_tests_cant": "tests use only M>=0", "anchors": ["pyorb/kepler.py:mean_to_eccentric", "pyorb/kepler.py:_get_hyperbolic_kepler_guess"]}
{"id": "C23", "title": "mean_to_true and true_to_mean are inverse up to tolerance (ellipse)", "statement": "For 0<=e<1, true_to_mean(mean_to_true(M)) is within tol of M modulo 2pi, and mean_to_true(true_to_mean(nu)) is the true anomaly of an eccentric anomaly within tol/(1-e) of the one of nu.", "quantifier": "every M, nu, 0<=e<1, tol>0", "why_tests_cant": "continuum", "anchors": ["pyorb/kepler.py:mean_to_true", "pyorb/kepler.py:true_to_mean"]}
{"id": "C24", "title": "Array anomaly conversions are element-wise", "statement": "Each anomaly conversion applied to arrays (or an array and a scalar, which is broadcast) returns the array of scalar results in the same logical order; arrays of different shape raise TypeError.", "quantifier": "every shape, every memory layout of the arguments, every mix of eccentricities including NaN, every initial memory content", "why_tests_cant": "mask coverage and iteration order matter for all mixes/layouts", "anchors": ["pyorb/kepler.py:true_to_eccentric", "pyorb/kepler.py:eccentric_to_true", "pyorb/kepler.py:eccentric_to_mean", "pyorb/kepler.py:mean_to_eccentric", "pyorb/kepler.py:kepler_guess"]}
{"id": "C25", "title": "Starting guesses are well defined and close", "statement": "kepler_guess returns a finite value for every 0<=e<=1 and every M (the denominator never vanishes), is mirror symmetric about pi, is exact at M=0 and M=pi, and for M in [0,2pi] lies within e of M like the exact solution does.", "quantifier": "every M and 0<=e<=1", "why_tests_cant": "denominator zeros cannot be excluded by sampling", "anchors": ["pyorb/kepler.py:_get_kepler_guess", "pyorb/kepler.py:kepler_guess"]}
{"id": "C26", "title": "Radius functions agree with each other", "statement": "elliptic_radius(E), hyperbolic_radius(nu) and parabolic_radius(nu) equal orbital_distance(h,mu,e,nu) with the matching angular momentum, and equal |r| of kep_to_cart; elliptic radius lies between a(1-e) and a(1+e).", "quantifier": "every e, anomaly, a>0, mu>0", "why_tests_cant": "continuum", "anchors": ["pyorb/kepler.py:elliptic_radius", "pyorb/kepler.py:parabolic_radius", "pyorb/kepler.py:hyperbolic_radius", "pyorb/kepler.py:orbital_distance"]}
{"id": "C27", "title": "Period and semi-major axis are inverse (Kepler III)", "statement": "semi_major_axis(orbital_period(a,mu),mu)=a, orbital_period(semi_major_axis(P,mu),mu)=P, and orbital_period^2 mu = 4 pi^2 a^3; the period is strictly increasing in a.", "quantifier": "every a,P,mu>0", "why_tests_cant": "continuum", "anchors": ["pyorb/kepler.py:orbital_period", "pyorb/kepler.py:semi_major_axis"]}
{"id": "C28", "title": "orbital_speed agrees with the Cartesian velocity", "statement": "orbital_speed(|r|, a, mu) equals |v| of the state produced by kep_to_cart for ellipses (and with a negated for hyperbolas).", "quantifier": "every elliptic and hyperbolic element set", "why_tests_cant": "continuum", "anchors": ["pyorb/kepler.py:orbital_speed", "pyorb/kepler.py:kep_to_cart"]}
{"id": "C29", "title": "true_of_the_asymptote bounds the hyperbola", "statement": "For e>1 the returned angle theta lies in (pi/2,pi), and for nu in [-pi,pi] the distance denominator 1+e cos nu is positive exactly when |nu|<theta, zero exactly at +-theta.", "quantifier": "every e>1, every nu", "why_tests_cant": "continuum", "anchors": ["pyorb/kepler.py:true_of_the_asymptote"]}
{"id": "C30", "title": "Stumpff functions equal their defining series", "statement": "stumpff0..3 return sum_j (-1)^j x^j/(n+2j)! for every real array element, satisfy c0+x c2=1 and c1+x c3=1, and every output element is written (no uninitialised memory).", "quantifier": "every real x (negative, zero, positive), every array length", "why_tests_cant": "infinite series over a continuum", "anchors": ["pyorb/kepler.py:stumpff0", "pyorb/kepler.py:stumpff1", "pyorb/kepler.py:stumpff2", "pyorb/kepler.py:stumpff3", "pyorb/kepler.py:stumpff"]}
{"id": "C31", "title": "Rotation matrices are proper rotations and compose", "statement": "rot_mat_x/y/z and euler_rotation_matrix are orthogonal with determinant 1; euler_rotation_matrix(i,omega,Omega)=rot_mat_z(Omega) rot_mat_x(i) rot_mat_z(omega); rotations about one axis add angles.", "quantifier": "every angle", "why_tests_cant": "continuum; tests use one angle", "anchors": ["pyorb/kepler.py:rot_mat_x", "pyorb/kepler.py:rot_mat_y", "pyorb/kepler.py:rot_mat_z", "pyorb/kepler.py:euler_rotation_matrix"]}
{"id": "C32", "title": "Equinoctial elements survive equi -> kep -> equi", "statement": "kep_to_equi(equi_to_kep(q)) returns q (longitude modulo a full circle) for eccentricity above e_lim or exactly zero; otherwise h and k differ by at most 2 e_lim and the rest is exact.", "quantifier": "every equinoctial element set, degrees and radians", "why_tests_cant": "continuum incl. arctan2 quadrants", "anchors": ["pyorb/kepler.py:kep_to_equi", "pyorb/kepler.py:equi_to_kep"]}
{"id": "C33", "title": "Keplerian elements survive kep -> equi -> kep", "statement": "equi_to_kep(kep_to_equi(k)) = k for e>e_lim, 0<i<pi and angles in [0,2pi); for i=0 Omega is folded into omega, for e=0 omega is folded into nu.", "quantifier": "every Keplerian element set with 0<=i<pi", "why_tests_cant": "continuum", "anchors": ["pyorb/kepler.py:kep_to_equi", "pyorb/kepler.py:equi_to_kep"]}
{"id": "C34", "title": "Equinoctial/Cartesian conversions agree with the two-step route", "statement": "cart_to_equi is kep_to_equi of cart_to_kep with nu replaced by the mean anomaly, equi_to_cart is the reverse route, and equi_to_cart(cart_to_equi(x)) reproduces x up to the solver tolerance (ellipse).", "quantifier": "every elliptic state", "why_tests_cant": "continuum", "anchors": ["pyorb/kepler.py:cart_to_equi", "pyorb/kepler.py:equi_to_cart"]}
{"id": "C35", "title": "kep_equivalent decides equivalence", "statement": "kep_equivalent(k1,k2) is reflexive, symmetric, and returns True only if the two element sets describe (up to tolerance) the same orbit and position.", "quantifier": "every pair of finite element vectors", "why_tests_cant": "the function has no tests of its own (TODO in source)", "anchors": ["pyorb/kepler.py:kep_equivalent"]}
{"id": "C36", "title": "get_G converts units correctly and rejects unknown units", "statement": "get_G(length,mass,time) equals G*mass*time^2/length^3 for the SI value of each unit, accepts any letter case (and separators in mass names), and raises TypeError for every other string or non-float value.", "quantifier": "every string and every float for each argument", "why_tests_cant": "infinitely many strings", "anchors": ["pyorb/unit.py:get_G"]}
{"id": "C37", "title": "Results are independent of the unit system", "statement": "Expressing lengths, masses and times in other units and using get_G for these units scales kep_to_cart, cart_to_kep, orbital_period and orbital_speed results exactly by the unit factors, leaving e and all angles unchanged.", "quantifier": "every positive unit factors, every element set and every state with r x v != 0", "why_tests_cant": "continuum", "anchors": ["pyorb/unit.py:get_G", "pyorb/kepler.py:kep_to_cart", "pyorb/kepler.py:cart_to_kep", "pyorb/kepler.py:orbital_period"]}
{"id": "C38", "title": "angle_units wraps functions transparently", "statement": "A decorated function called with degrees false behaves as the original; with degrees true the listed arguments arrive in radians, the others untouched, and the listed outputs are returned in degrees, the others untouched.", "quantifier": "every function, argument list, keyword set and index list", "why_tests_cant": "higher-order: ranges over all functions", "anchors": ["pyorb/unit.py:angle_units"]}
{"id": "C39", "title": "Constants cannot change once defined", "statement": "After any sequence of attribute assignments and deletions on the constants module every defined constant keeps its value; rebinding to a different value and deleting raise; rebinding to an equal value is silent.", "quantifier": "every history of set/del operations", "why_tests_cant": "history property", "anchors": ["pyorb/const.py:_const"]}
{"id": "C40", "title": "Constants objects share state (Borg)", "statement": "Every instance of the constants class sees the same constants (documented Borg pattern).", "quantifier": "every pair of instances and every history", "why_tests_cant": "history property", "anchors": ["pyorb/const.py:_const", "pyorb/_const_docs.py"]}
{"id": "C41", "title": "Orbit arrays stay aligned", "statement": "After any sequence of public Orbit operations all per-orbit arrays (mass, Cartesian, Kepler, anomaly caches, freshness flags) have num entries.", "quantifier": "every operation sequence, every index set, every arithmetic", "why_tests_cant": "history property", "anchors": ["pyorb/orbit.py:Orbit"]}
{"id": "C42", "title": "direct_update keeps Cartesian and Kepler consistent", "statement": "With direct_update=True, after any sequence of setters, update, add, delete, propagate and calculate calls, every orbit whose twelve values are all numbers has Cartesian elements equal to the conversion of its Kepler elements or vice versa.", "quantifier": "every history in direct mode", "why_tests_cant": "history property", "anchors": ["pyorb/orbit.py:Orbit.update", "pyorb/orbit.py:Orbit.calculate_cartesian", "pyorb/orbit.py:Orbit.calculate_kepler"]}
{"id": "C43", "title": "auto_update never returns contradictory pairs", "statement": "With direct_update=False and auto_update=True, after any sequence of operations reading cartesian and kepler (in any order) returns a pair where one is the conversion of the other (README: never contradictory).", "quantifier": "every history in lazy mode, every anomaly type", "why_tests_cant": "history property", "anchors": ["README.md", "pyorb/orbit.py:Orbit._cart_check", "pyorb/orbit.py:Orbit._kep_check"]}
{"id": "C44", "title": "A value written is the value read", "statement": "Immediately after assigning an element (or cartesian/kepler/r/v as a whole) reading it back gives the assigned value.", "quantifier": "every state and every setter, every update mode", "why_tests_cant": "all states/histories", "anchors": ["pyorb/orbit.py:Orbit"]}
{"id": "C45", "title": "No update is lost in lazy mode", "statement": "With direct_update=False and auto_update=True the conversion triggered by a read starts from the side that was written last.", "quantifier": "every history in lazy mode", "why_tests_cant": "history property", "anchors": ["pyorb/orbit.py:Orbit"]}
{"id": "C46", "title": "Manual mode leaves the other side alone", "statement": "With direct_update=False and auto_update=False setters and getters of one side never change the other side until calculate_cartesian/calculate_kepler is called.", "quantifier": "every history in manual mode", "why_tests_cant": "history property", "anchors": ["pyorb/orbit.py:Orbit"]}
{"id": "C47", "title": "Read-only flags are enforced", "statement": "With kepler_read_only (cartesian_read_only) set, every Kepler (Cartesian) setter and update raises AttributeError and leaves the whole orbit unchanged.", "quantifier": "every setter, every state", "why_tests_cant": "all setters x all states", "anchors": ["pyorb/orbit.py:Orbit"]}
{"id": "C48", "title": "Changing the anomaly type does not move the body", "statement": "Assigning orb.type changes the stored anomaly but not the orbit: Cartesian state and the other two anomalies stay the same, and Cartesian and Kepler remain consistent.", "quantifier": "every state, every pair of types, every update mode", "why_tests_cant": "the existing test never looks at the Cartesian state", "anchors": ["pyorb/orbit.py:Orbit.type"]}
{"id": "C49", "title": "copy and indexing are faithful and independent", "statement": "orb.copy() and orb[inds] give an Orbit on which every getter returns what it returns on the original (for the selected orbits), and later operations on one never affect the other.", "quantifier": "every state, every index, every update mode", "why_tests_cant": "observational equality over all states", "anchors": ["pyorb/orbit.py:Orbit.__getitem__", "pyorb/orbit.py:Orbit.copy"]}
{"id": "C50", "title": "Iteration visits every orbit once, in order", "statement": "A for-loop over an Orbit yields exactly num single orbits, the j-th equal to orb[j]; loops over the same object can be nested.", "quantifier": "every Orbit, every interleaving of iterators", "why_tests_cant": "interleavings", "anchors": ["pyorb/orbit.py:Orbit.__iter__", "pyorb/orbit.py:Orbit.__next__"]}
{"id": "C51", "title": "add, delete and allocate do what they say", "statement": "delete(inds) removes exactly the selected orbits and keeps the others in order; add(num) appends num orbits and keeps the existing ones; allocate(num) yields num empty orbits.", "quantifier": "every state, every index set", "why_tests_cant": "all states", "anchors": ["pyorb/orbit.py:Orbit.add", "pyorb/orbit.py:Orbit.delete", "pyorb/orbit.py:Orbit.allocate"]}
{"id": "C52", "title": "update is all-or-nothing on invalid keyword combinations", "statement": "update with both Cartesian and Kepler keys, with m in direct mode, or with a read-only side raises and leaves the orbit unchanged.", "quantifier": "every keyword combination and every state", "why_tests_cant": "all combinations x states", "anchors": ["pyorb/orbit.py:Orbit.update"]}
{"id": "C53", "title": "update(inds=...) changes only the selected orbits", "statement": "After update(inds, ...) the orbits outside inds have the Kepler and Cartesian elements they had before.", "quantifier": "every state, index set and keyword set", "why_tests_cant": "all states", "anchors": ["pyorb/orbit.py:Orbit.update"]}
{"id": "C54", "title": "update(cartesian=v)/update(kepler=k) equals the property setter", "statement": "update(cartesian=v) has the same effect as orb.cartesian = v (as documented), and likewise for kepler.", "quantifier": "every value shape accepted by the setter and every number of orbits", "why_tests_cant": "shape x num combinations", "anchors": ["pyorb/orbit.py:Orbit.update", "pyorb/orbit.py:Orbit.cartesian"]}
{"id": "C55", "title": "propagate advances the mean anomaly by mean motion times dt", "statement": "After propagate(dt) the mean anomaly is M + n dt modulo a full circle with a,e,i,omega,Omega unchanged; propagating by dt1 then dt2 equals dt1+dt2, by 0 or a whole number of periods changes nothing (type mean: exactly, otherwise up to solver tolerance).", "quantifier": "every elliptic orbit set, every dt", "why_tests_cant": "continuum of times; additive law", "anchors": ["pyorb/orbit.py:Orbit.propagate", "pyorb/orbit.py:Orbit.mean_motion"]}
{"id": "C56", "title": "Propagation obeys Newton's law", "statement": "The Cartesian trajectory t -> kep_to_cart of the elements with mean anomaly M0+n t (exactly solved Kepler equation) is twice differentiable and satisfies r''=-mu r/|r|^3, with velocity equal to the returned velocity.", "quantifier": "every elliptic element set and every time", "why_tests_cant": "a differential equation over a continuum", "anchors": ["pyorb/orbit.py:Orbit.propagate", "pyorb/kepler.py:kep_to_cart", "pyorb/kepler.py:mean_to_true"]}
{"id": "C57", "title": "Propagation is right for open orbits", "statement": "propagate advances hyperbolic orbits by M + n dt (no wrap-around) and parabolic orbits by Barker's equation rate sqrt(mu/(2 q^3)).", "quantifier": "every open orbit and dt", "why_tests_cant": "continuum; no tests", "anchors": ["pyorb/orbit.py:Orbit.propagate"]}
{"id": "C58", "title": "period and mean_motion can be assigned", "statement": "Assigning orb.period = P (orb.mean_motion = n) sets the semi-major axis accordingly; reading back gives the assigned value.", "quantifier": "every state and P>0", "why_tests_cant": "setter is never exercised by tests", "anchors": ["pyorb/orbit.py:Orbit.period", "pyorb/orbit.py:Orbit.mean_motion"]}
{"id": "C59", "title": "velocity setter rescales the velocity", "statement": "orb.velocity = s changes the length of the velocity vector to s and keeps its direction and the position.", "quantifier": "every state with nonzero velocity, every s>0", "why_tests_cant": "continuum", "anchors": ["pyorb/orbit.py:Orbit.velocity"]}
{"id": "C60", "title": "speed equals velocity", "statement": "orb.speed (from Kepler) equals orb.velocity (from Cartesian) whenever the two sides are consistent.", "quantifier": "every consistent orbit, elliptic or hyperbolic", "why_tests_cant": "test compares one orbit to 2 decimals", "anchors": ["pyorb/orbit.py:Orbit.speed", "pyorb/orbit.py:Orbit.velocity"]}
{"id": "C61", "title": "periapsis and apoapsis are the extreme distances", "statement": "orb.periapsis (apoapsis) is the least (greatest, ellipse) distance over all true anomalies.", "quantifier": "every orbit and anomaly", "why_tests_cant": "extremum over a continuum", "anchors": ["pyorb/orbit.py:Orbit.periapsis", "pyorb/orbit.py:Orbit.apoapsis"]}
{"id": "C62", "title": "Rounding never pushes the inclination out of arccos' domain", "statement": "In binary floating point (round to nearest, no overflow/underflow) the quotients h_z/|h| and n_x/|n| fed unclamped to arccos by cart_to_kep lie in [-1,1].", "quantifier": "every vector of floating point numbers", "why_tests_cant": "rounding behaviour over 2^192 inputs", "anchors": ["pyorb/kepler.py:cart_to_kep"]}
{"id": "C63", "title": "Equinoctial property of Orbit round-trips", "statement": "Reading orb.equinoctial and assigning it back (or to another Orbit with the same settings) leaves the orbit physically unchanged; h,k,p,q,a read back equal those assigned.", "quantifier": "every elliptic orbit state, every mode and type", "why_tests_cant": "all states", "anchors": ["pyorb/orbit.py:Orbit.equinoctial"]}
{"id": "C64", "title": "Reading and calculating Kepler elements always terminates", "statement": "calculate_kepler, which reads self.e, whose getter calls _kep_check, which calls calculate_kepler again, never recurses more than twice: the call succeeds for every valid index selection and raises IndexError otherwise (ValueError for a slice with step 0), and every Kepler element getter returns one value per orbit.", "quantifier": "every object with aligned arrays, every update mode, anomaly type, pattern of stale orbits and index selection", "why_tests_cant": "unbounded recursion would depend on the pattern of stale and NaN orbits", "anchors": ["pyorb/orbit.py:Orbit.calculate_kepler", "pyorb/orbit.py:Orbit._kep_check"]}
{"id": "C65", "title": "calc_*_anomaly on a selection of orbits", "statement": "calc_true_anomaly(inds), calc_mean_anomaly(inds) and calc_eccentric_anomaly(inds) store, for every selected orbit, that orbit's anomaly (the one the getter returns) and leave the stored values of all other orbits and everything else in the object as they were.", "quantifier": "every object with aligned arrays, every mode and type, every valid index (integer, list with repeats, mask, slice with any step)", "why_tests_cant": "all index forms, strides and histories; depends on the memory order of the selected view", "anchors": ["pyorb/orbit.py:Orbit.calc_true_anomaly", "pyorb/orbit.py:Orbit.calc_mean_anomaly", "pyorb/orbit.py:Orbit.calc_eccentric_anomaly", "pyorb/kepler.py:mean_to_eccentric"]}
{"id": "C66", "title": "The Kepler solver converges for every elliptic orbit", "statement": "Started from get_kepler_guess, the Laguerre iteration with its degree 5 reaches every tolerance t for all 0<=e<1 and all M in [0,2pi], in a number of iterations that depends on t only (at most 327 of the 5000 allowed for the default 1e-12). Hence mean_to_eccentric always returns E with |E - e sin E - M| < t, and propagation, change of anomaly type and the equinoctial conversions of elliptic orbits are accurate to the tolerance without any condition on convergence.", "quantifier": "every 0<=e<1 (arbitrarily close to 1), every M in one revolution, every tolerance", "why_tests_cant": "two continuous parameters; slow or cycling iterations would sit near e=1, M=0", "anchors": ["pyorb/kepler.py:laguerre_solve_kepler", "pyorb/kepler.py:get_kepler_guess", "pyorb/kepler.py:mean_to_eccentric", "pyorb/orbit.py:Orbit.propagate"]}
{"id": "C67", "title": "Results do not depend on the dtype of the argument arrays", "statement": "Calling a conversion with an integer numpy array gives the same elements as calling it with the float64 array of the same values, leaves the caller's array unchanged, and assigning an integer array to an anomaly property of an Orbit stores the same anomaly as assigning the float array.", "quantifier": "all states and elements with integer components, all anomalies given as integers, scalars and arrays, degrees and radians", "why_tests_cant": "the result buffers take the dtype of the argument, so the fault depends on a type the tests never vary; float tests pass for every value", "anchors": ["pyorb/kepler.py:cart_to_kep", "pyorb/kepler.py:kep_to_cart", "pyorb/kepler.py:kep_to_equi", "pyorb/kepler.py:equi_to_kep", "pyorb/kepler.py:true_to_eccentric", "pyorb/kepler.py:eccentric_to_mean", "pyorb/kepler.py:mean_to_eccentric", "pyorb/orbit.py:Orbit.mean_anomaly"]}
{"id": "C68", "title": "Arrays and copies are independent of the object", "statement": "Writing to an array that an Orbit returned, or that was passed to it, never changes the Orbit; operating on one Orbit (or on a copy or selection of it) never changes another Orbit, an array returned earlier, or an array passed as argument. A program over several Orbits and arrays therefore behaves as if every object and array were a value.", "quantifier": "all programs: any sequence of constructions, copies, selections, iteration, getters, setters, updates, and writes by the caller to any array it holds, exceptions included", "why_tests_cant": "a missing copy shows only for the particular interleaving that writes to the shared array and reads the other end", "anchors": ["pyorb/orbit.py:Orbit.__getitem__", "pyorb/orbit.py:Orbit.cartesian", "pyorb/orbit.py:Orbit.kepler", "pyorb/orbit.py:Orbit.update", "pyorb/orbit.py:Orbit.add", "pyorb/orbit.py:Orbit.delete", "pyorb/orbit.py:Orbit.allocate", "pyorb/orbit.py:Orbit.calc_eccentric_anomaly"]}
{"id": "C69", "title": "Rounding never produces NaN or infinity from valid elements", "statement": "In floating point (no overflow or underflow) the anomaly conversions of elliptic orbits always return finite numbers, eccentric and true anomalies lie in [0, 2 pi), and kep_to_cart of finite elements returns a finite state; parabolic mean anomalies have a finite eccentric anomaly.", "quantifier": "all precisions above 12 bits, all mathematics libraries within the stated bounds, all p-digit anomalies and eccentricities (arrays of any shape and layout), all finite elements", "why_tests_cant": "NaN or infinity comes from a cancellation or division at special inputs; tests sample a few floats", "anchors": ["pyorb/kepler.py:mean_to_eccentric", "pyorb/kepler.py:get_kepler_guess", "pyorb/kepler.py:laguerre_solve_kepler", "pyorb/kepler.py:true_to_eccentric", "pyorb/kepler.py:eccentric_to_true", "pyorb/kepler.py:kep_to_cart"]}
{"id": "C70", "title": "The hyperbolic Kepler solver always finds the anomaly", "statement": "For every hyperbolic orbit mean_to_eccentric and mean_to_true return the solution of the hyperbolic Kepler equation to the requested tolerance; started from the code's guess the iteration reaches the tolerance before max_iter and mean anomalies obtained from a true anomaly lead back to it.", "quantifier": "all eccentricities e > 1, all real mean anomalies, all option records of degree 5 whose max_iter suffices for the tolerance", "why_tests_cant": "convergence of an iteration over an unbounded two-parameter domain; a divergent region near e = 1 is easily missed by samples", "anchors": ["pyorb/kepler.py:laguerre_solve_kepler", "pyorb/kepler.py:_get_hyperbolic_kepler_guess", "pyorb/kepler.py:mean_to_eccentric", "pyorb/kepler.py:mean_to_true"]}
{"id": "C71", "title": "Reading never changes what other reads return", "statement": "Reading properties, calling the calc_* methods or iterating does not change the Kepler elements, Cartesian elements or anomalies that later reads return.", "quantifier": "every object state, every sequence of reads in between, every orbit, every update mode and anomaly type, any arithmetic", "why_tests_cant": "reads trigger hidden recalculations and flag changes; the order of reads is an unbounded choice", "anchors": ["pyorb/orbit.py:Orbit._cart_check", "pyorb/orbit.py:Orbit._kep_check", "pyorb/orbit.py:Orbit.kepler", "pyorb/orbit.py:Orbit.cartesian", "pyorb/orbit.py:Orbit.calc_true_anomaly"]}
{"id": "C72", "title": "print(orb) shows the current elements", "statement": "str(orb) of a single orbit has six lines, the i-th showing under their names the i-th Kepler and Cartesian element that reading the attributes gives; otherwise it shows the number of orbits.", "quantifier": "every object state, every update mode, every number formatting without line breaks", "why_tests_cant": "depends on the freshness of two cached arrays in all reachable states", "anchors": ["pyorb/orbit.py:Orbit.__str__"]}
{"id": "C73", "title": "cart_to_kep follows rotations about the polar axis and the reversal of motion", "statement": "Rotating a state about the z axis by d shifts Omega by d and leaves a, e, i, omega and nu unchanged (for planar orbits omega, for circular planar orbits nu is shifted instead, backwards when the motion is retrograde); reversing the velocity keeps a and e, gives inclination pi - i, exchanges the nodes and mirrors omega and nu.", "quantifier": "every non-parabolic state with non-zero angular momentum whose inclination is 0, pi or beyond the planar threshold, every angle d", "why_tests_cant": "a relation between the results of two calls for a continuum of states, angles and four branches", "anchors": ["pyorb/kepler.py:cart_to_kep"]}
{"id": "C74", "title": "Assigning one element leaves the others as they were", "statement": "After orb.a = v (any Kepler element or anomaly, of the configured or another type) the other five Kepler elements read as before; after orb.x = v (any Cartesian element) the other five Cartesian elements read as before; orb.r = v keeps the velocity and orb.v = v the position.", "quantifier": "every object state, every update mode and anomaly type, every assigned value, every orbit, any arithmetic", "why_tests_cant": "hidden recalculation between assignment and read depends on the flags of both element sets in all reachable states", "anchors": ["pyorb/orbit.py:Orbit.a", "pyorb/orbit.py:Orbit.x", "pyorb/orbit.py:Orbit.r", "pyorb/orbit.py:Orbit.v", "pyorb/orbit.py:Orbit.mean_anomaly", "pyorb/orbit.py:Orbit._kep_check"]}
{"id": "C75", "title": "Changing M0, G, degrees or solver_options of a live object", "statement": "After orb.M0, orb.G, orb.degrees or orb.solver_options is assigned, anywhere in a program, the arrays keep one entry per orbit and the Cartesian and Kepler elements read are conversions of each other under the new attributes; in any case a later whole-state assignment (orb.kepler = v or orb.cartesian = v) makes them so.", "quantifier": "every program of operations, mode changes and attribute assignments, every value, any arithmetic", "why_tests_cant": "history property over interleavings of plain attribute assignments, which run no code, with every method", "anchors": ["pyorb/orbit.py:Orbit.__init__", "pyorb/orbit.py:Orbit.kepler", "pyorb/orbit.py:Orbit.cartesian", "pyorb/orbit.py:Orbit._cart_check", "pyorb/orbit.py:Orbit._kep_check"]}
{"id": "C76", "title": "The 1e-9 limits of cart_to_kep cost at most 3e-8", "statement": "kep_to_cart(cart_to_kep(x)) is within 3e-8 |r| of the position and 3e-8 |v| of the velocity, also for the orbits that cart_to_kep treats as circular (e <= 1e-9) or planar (i within pi*1e-9 of 0 or pi) although they are not.", "quantifier": "every mu>0 and every state with r x v != 0 and energy != 0, no exception around the limits", "why_tests_cant": "the affected states are a thin set around two limits, in four branches; sampling does not hit it", "anchors": ["pyorb/kepler.py:cart_to_kep", "pyorb/kepler.py:kep_to_cart"]}
{"id": "C77", "title": "kep_to_cart is accurate in floating point", "statement": "In floating point arithmetic with unit roundoff u, for valid elements the state returned by kep_to_cart is finite and within a relative error 130 K u of the exact state, in position and in velocity. K is the condition of the conic: 1+e <= K|1-e| unless e=1, and 1+e <= K(1+e cos nu); for an ellipse K=(1+e)/(1-e) serves at every anomaly. With angles in degrees of at most B turns the bound is 3510 B K u.", "quantifier": "every rounding with relative error u that is exact on 1, 2, -1, every sin and cos correct to 2u, every mu>0 and valid elements (ellipse, parabola, hyperbola) with K u <= 1e-4 (K 27 B u <= 1e-4 for degrees), single orbits and arrays", "why_tests_cant": "a worst-case bound over all elements and all rounding errors; comparing samples with another double precision code cannot give one", "anchors": ["pyorb/kepler.py:kep_to_cart", "pyorb/kepler.py:euler_rotation_matrix", "pyorb/kepler.py:orbital_distance"]}
{"id": "C78", "title": "The anomaly conversions of elliptic orbits are accurate in floating point", "statement": "In floating point arithmetic with unit roundoff u and for every 0 <= e < 1: true_to_eccentric and eccentric_to_true return a finite angle within 100 u of a solution, however close e is to 1; eccentric_to_mean is within 1.1 u |M| + 4 u e; true_to_mean within 220 u; and when mean_to_eccentric returns E' with the solver stopped before max_iter, then E' solves Kepler's equation to (1+4u) tol + 6 u e, a bound without M, and is within that over 1-e of the root.", "quantifier": "every rounding with relative error u <= 1e-4 exact on 1, 2, -1 and on halves, every library with sin, cos, arctan to 2u/4u absolute, tan to 2u relative and an exact remainder, every 0 <= e < 1, every floating point anomaly, every solver option", "why_tests_cant": "uniform over all eccentricities up to 1 and all anomalies and rounding errors; the scale factor sqrt((1+e)/(1-e)) is unbounded, so sampled accuracy says nothing about the rest", "anchors": ["pyorb/kepler.py:true_to_eccentric", "pyorb/kepler.py:eccentric_to_true", "pyorb/kepler.py:eccentric_to_mean", "pyorb/kepler.py:true_to_mean", "pyorb/kepler.py:mean_to_eccentric"]}
{"id": "C79", "title": "The Kepler solver converges in floating point and mean elements give the right state", "statement": "In floating point arithmetic with unit roundoff u: for degree 5 and a tolerance t with (340+5|M|)u <= t the Laguerre iteration started from the built-in guess stops within m steps when 3/2 < t 2^m, never returns NaN, and mean_to_eccentric is within 4/3((1+4u)t + 6ue) of the root; mean_to_true is within 110u+3t in cosine and sine; and kep_to_cart of the result is the state of the exact mean elements up to a relative error 450u + 6t in position and velocity. With double precision and the default options (tol 1e-12, 5000 iterations, degree 5) this holds for every |M| <= 1000.", "quantifier": "every rounding with relative error u <= 1e-6, every library accurate as in C78, every 0 <= e <= 1/4, every mean anomaly with |M| u <= 1e-3, every tolerance above the roundoff floor; every a, mu > 0, every orientation", "why_tests_cant": "the iteration might stall above the tolerance or divide by a vanishing denominator for some pair (M, e); a contraction argument with rounding errors excludes it for all pairs, sampling does not", "anchors": ["pyorb/kepler.py:laguerre_solve_kepler", "pyorb/kepler.py:_get_kepler_guess", "pyorb/kepler.py:mean_to_eccentric", "pyorb/kepler.py:mean_to_true", "pyorb/kepler.py:kep_to_cart"]}
{"id": "C80", "title": "Orbit.propagate in floating point arithmetic lands on the Newtonian trajectory", "statement": "In floating point arithmetic with unit roundoff u: for an elliptic orbit of any stored anomaly type, in lazy or direct mode, the Cartesian state read after propagate(d) differs from the state at time d of the Newtonian motion that starts at the stored elements by a relative error of at most u(2400 + 200(|x| + |n d|)) + 6 tol in position and in velocity, where x is the stored anomaly and n = sqrt(mu/a^3). The error grows linearly with the interval, and no NaN appears.", "quantifier": "every rounding with relative error u <= 1e-6, every library accurate as in C78, every number of orbits, every interval with u(|x| + |n d|) <= 1e-5, every a, mu > 0, 0 <= e <= 1/4, every orientation, every anomaly type, lazy and direct mode", "why_tests_cant": "the state passes through the stored conversion, a rounded mean motion, a floating point mod, the iterative solver and two more conversions; the error bound must hold for every element set and every interval", "anchors": ["pyorb/orbit.py:Orbit.propagate", "pyorb/orbit.py:Orbit.mean_anomaly", "pyorb/orbit.py:Orbit.mean_motion", "pyorb/kepler.py:mean_to_eccentric", "pyorb/kepler.py:kep_to_cart"]}
{"id": "C81", "title": "The Kepler solver converges in floating point for every eccentricity the precision resolves", "statement": "In floating point arithmetic with unit roundoff u, for every e with 80000000 u <= (1-e)^4 (in double precision every e up to 0.99), degree 5, every mean anomaly in [0, 2 pi] and every tolerance t >= 300 u: the Laguerre iteration started from the built-in guess stops after at most 2m+1+m2 steps where 160 (6/7)^m <= (1-e)^2 and 3 < t 10^m2, never meets NaN, and mean_to_eccentric solves Kepler's equation to (1+4u)t + 6ue; mean_to_true is off in cosine and sine by at most 100u + sqrt((1+e)/(1-e)) times that residual over 1-e; kep_to_cart of the result is the state of the exact mean elements up to the relative error (265u + 3/2 of the anomaly error)/(1-e). The default options suffice for every e up to 0.99.", "quantifier": "every rounding with relative error u, every library accurate as in C78, every e with 80000000 u <= (1-e)^4, every mean anomaly in [0, 2 pi + 30u], every tolerance above the roundoff floor; every a, mu > 0, every orientation", "why_tests_cant": "for large e the first steps move far from the root and the derivative nearly vanishes there; whether rounding can push the iteration onto a bad branch or into a cycle for some (M, e) is a statement about a continuum of starting points", "anchors": ["pyorb/kepler.py:laguerre_solve_kepler", "pyorb/kepler.py:_get_kepler_guess", "pyorb/kepler.py:mean_to_eccentric", "pyorb/kepler.py:mean_to_true", "pyorb/kepler.py:kep_to_cart"]}
{"id": "C82", "title": "Orbit.propagate of eccentric orbits lands on the Newtonian trajectory in floating point", "statement": "In floating point arithmetic with unit roundoff u, for every elliptic orbit with 80000000 u <= (1-e)^4, of any stored anomaly type, in lazy or direct mode: the Cartesian state read after propagate(d) differs from the state at time d of the Newtonian motion that starts at the stored elements by at most the relative error of C81 for a mean anomaly that is off by u(380 + 30(|x| + |n d|)), x the stored anomaly and n = sqrt(mu/a^3). For double precision, the default options, e = 0.9 and d = 2 the bound is 1e-9.", "quantifier": "every rounding with relative error u, every library accurate as in C78, every number of orbits, every interval with 1000(t + u(380+30(|x| + |n d|))) <= (1-e)^3, every a, mu > 0, every resolved e, every orientation, every anomaly type, lazy and direct mode", "why_tests_cant": "error propagation through conversion, mean motion, mod, solver and conversions back must be bounded for all elements and intervals, with the condition numbers growing like powers of 1/(1-e)", "anchors": ["pyorb/orbit.py:Orbit.propagate", "pyorb/orbit.py:Orbit.mean_anomaly", "pyorb/orbit.py:Orbit.mean_motion", "pyorb/kepler.py:mean_to_eccentric", "pyorb/kepler.py:kep_to_cart"]}
{"id": "C83", "title": "cart_to_kep in floating point returns the elements up to a bounded error", "statement": "In a binary floating point format with unit roundoff u, for the exact state of an inclined ellipse that is not close to circular, parabolic or equatorial for the precision at hand, cart_to_kep returns finite elements: the semi-major axis has relative error at most 100u/(1-e), the eccentricity absolute error at most 290u, and with d_i = 100u/(1-e), d_Omega = 110u/((1-e) sin i), d_omega = 1010u/(e(1-e) sin i), d_nu = 1460u/e each angle has its cosine within d, its sine within 3 sqrt(d) and within 3d/|sin| of the true one, so that modulo 2 pi each angle is within 155 sqrt(u/(e(1-e) sin i)). The same for arrays, column by column, and for degrees. The square root is real: no bound of the form C u/(e(1-e) sin i) holds for the node angle.", "quantifier": "every binary precision, every library whose arccos has the right end values and is accurate to 4 units, every mu > 0, every valid element set with u/(e(1-e) sin i) <= 1e-8, 100u/(1-e) <= sin^2 i, sin i >= 1e-8, e >= 2e-9; every number of columns", "why_tests_cant": "the conversion subtracts nearly equal quantities, clips arccos arguments and chooses signs by comparisons with zero; that a wrong sign can only be chosen when the angle is within the error of 0 or pi is a statement about all states", "anchors": ["pyorb/kepler.py:cart_to_kep"]}
{"id": "C84", "title": "Cartesian - Kepler - Cartesian in floating point returns the state", "statement": "In a binary floating point format with unit roundoff u, let w = u/(e(1-e) sin i). For the exact state of an inclined ellipse as in C83, kep_to_cart applied to the result of cart_to_kep returns finite numbers, with relative error at most 290 sqrt(w) in position and 290 sqrt(w)/(1-e) in velocity; if no angle (i, omega, Omega, nu) has a sine below s in absolute value, at most 13600 w/s and 13600 w/(s(1-e)). In double precision an orbit with e = 1/2 and angles of 1 and 2 radians comes back to 1e-10.", "quantifier": "every binary precision, every library with arccos as in C83 and sin, cos accurate to 2u, every mu > 0, every valid element set that is regular in the sense of C83", "why_tests_cant": "errors of the two conversions combine through cancellation near special angles; the bound must hold uniformly over all orbits and shows where half of the digits can be lost", "anchors": ["pyorb/kepler.py:cart_to_kep", "pyorb/kepler.py:kep_to_cart"]}
{"id": "C85", "title": "Kepler - Cartesian - Kepler in floating point returns the elements", "statement": "In a binary floating point format with unit roundoff u, let W = u/(e(1-e)^2 sin i). For an inclined ellipse that is not close to circular, parabolic or equatorial for the precision at hand, cart_to_kep applied to the computed result of kep_to_cart returns finite elements: the semi-major axis with relative error at most 1800u/(1-e)^2, the eccentricity with error at most 2500u/(1-e), each angle with its cosine within 9300W and its sine within 3 sqrt(9300W) and within 27900W/|sin| of the true one, so that modulo 2 pi each angle is within 390 sqrt(W).", "quantifier": "every binary precision, every library with arccos as in C83 and sin, cos accurate to 2u, every mu > 0, every valid element set with W <= 5e-9, 110u/(1-e) <= sin^2 i, sin i >= 2e-8, e >= 3e-9", "why_tests_cant": "the intermediate state is not the exact state of the given elements: how much the elements move under a perturbation of the state is a statement about all orbits, and a sampled round trip does not find the orbits that lose half of the digits", "anchors": ["pyorb/kepler.py:kep_to_cart", "pyorb/kepler.py:cart_to_kep"]}
{"id": "C86", "title": "Propagating a Cartesian state in floating point", "statement": "In a binary floating point format with unit roundoff u, assigning orb.cartesian, calling orb.propagate(dt) and reading orb.cartesian gives for every object on a regular inclined ellipse (as in C83) finite numbers with relative error in position and velocity at most (1710 sqrt(w) + 720 u |n dt|/(1-e))/(1-e)^2 plus 11/10 of the error of C82, against the exact Kepler motion of the assigned state; w = u/(e(1-e) sin i), n the mean motion. In double precision with default options, e = 1/2, angles of 1 and 2 radians and n dt = 2 this is below 2e-4.", "quantifier": "every binary precision, every library with arccos as in C83 and functions as in C78, every number of objects, lazy and direct mode, all three anomaly types, every dt, every state of a regular ellipse the precision and the solver tolerance resolve", "why_tests_cant": "the bound combines the loss of digits of cart_to_kep with its amplification by the motion over arbitrarily long times and with the stopping error of the iteration; tests sample single orbits and times", "anchors": ["pyorb/orbit.py:Orbit.cartesian", "pyorb/orbit.py:Orbit.propagate", "pyorb/kepler.py:cart_to_kep"]}
{"id": "C87", "title": "Propagation returns the solution of Newton's equation through the given state", "statement": "The two-body equation r'' = -mu r/|r|^3 has at most one solution through a state with r x v != 0, on every open time interval; every solution follows Kepler's equation. Hence for every solution Y of the equation with Y(0) the assigned Cartesian state of a bound orbit (e = 0 or e > 1e-9, i = 0, i = pi or away from them by 1e-9 pi), orb.cartesian = Y(0); orb.propagate(d); orb.cartesian returns Y(d) up to a tol/(1-e) in position and 3 sqrt(mu/a) tol/(1-e)^3 in velocity in exact arithmetic, and with the errors of C82 and C86 in floating point; hyperbolic orbits within the range of C70 return Y at a time within tol of d in mean anomaly.", "quantifier": "every mu > 0, every solution Y of the differential equation on any open interval containing 0 and d, every number of objects, lazy and direct mode, all anomaly types, degrees and radians (exact arithmetic), every step d of either sign", "why_tests_cant": "the reference is an arbitrary solution of a differential equation, not a formula or another program; uniqueness and the agreement for all times and states are statements about infinitely many motions", "anchors": ["pyorb/orbit.py:Orbit.propagate", "pyorb/orbit.py:Orbit.cartesian", "pyorb/kepler.py:kep_to_cart", "pyorb/kepler.py:cart_to_kep", "pyorb/kepler.py:mean_to_true"]}
{"id": "C88", "title": "The guarantees about objects hold in IEEE double precision", "statement": "With IEEE 754 binary64 data (signed zeros, subnormals, infinities, NaN) and round-to-nearest-even operations that overflow and underflow, whatever the mathematics library returns: the arrays of an Orbit keep one width (C41), in direct mode every orbit without NaN is consistent (C42), and in lazy mode the pair read from cartesian and kepler is consistent (C43).", "quantifier": "every library, every pair of doubles, every configuration, initial elements and history of operations as in C41-C43", "why_tests_cant": "the special values (NaN, infinities, -0.0) and overflow make cases that no sampled history visits, and the behaviour of the mathematics library is not fixed", "anchors": ["pyorb/orbit.py:Orbit", "pyorb/kepler.py:mean_to_true", "pyorb/kepler.py:true_to_mean"]}
{"id": "C89", "title": "States close to a parabola get usable Kepler elements in double precision", "statement": "For a finite state with mu > 0, non-zero angular momentum and non-zero energy, cart_to_kep in double precision returns a positive semi-major axis, and kep_to_cart converts the returned elements back to finite numbers.", "quantifier": "every state of doubles, every mathematics library", "why_tests_cant": "the sign of the energy and the comparison of the eccentricity with 1 are rounded independently; whether they can disagree is a question about all doubles near the parabola", "anchors": ["pyorb/kepler.py:cart_to_kep", "pyorb/kepler.py:kep_to_cart"]}
{"id": "C90", "title": "The conversions are accurate in IEEE double precision, range included", "statement": "For doubles of moderate size kep_to_cart and cart_to_kep neither overflow nor lose accuracy by underflow: the run in IEEE 754 binary64 returns finite numbers and is, number for number, the run with 53 digits and an unbounded exponent range. So the accuracy statements about the conversions (C77, C83) and about both round trips (C84, C85) hold for real double precision, with np.pi the correctly rounded double.", "quantifier": "every state and element set of doubles between 2^-100 and 2^100 (zeros allowed), every mathematics library accurate to a few units in the last place, scalar and array input", "why_tests_cant": "overflow and underflow happen in intermediate results (products of squares, differences) and depend on all inputs at once; a test visits finitely many magnitudes", "anchors": ["pyorb/kepler.py:kep_to_cart", "pyorb/kepler.py:cart_to_kep"]}
{"id": "C91", "title": "An Orbit shows accurate element sets in IEEE double precision", "statement": "With moderate doubles, after orb.kepler = v the Cartesian states read from the object are finite and those of the stored elements to a few dozen units in the last place (times the conditioning of the orbit), and after orb.cartesian = v the Kepler elements read are finite and those of the stored states to the same order. After any history of operations that keeps the object consistent the same holds of each orbit in one direction or the other: the state is accurate for the elements, or the elements are accurate for the state.", "quantifier": "every number of orbits, both automatic modes (lazy and direct), every history of operations allowed in C41/C42, every mathematics library accurate to a few units in the last place; type true, radians", "why_tests_cant": "joins the state machine of the lazy and direct modes (unbounded histories) with rounding, overflow and underflow for all inputs", "anchors": ["pyorb/orbit.py:Orbit.kepler", "pyorb/orbit.py:Orbit.cartesian", "pyorb/orbit.py:Orbit.calculate_cartesian", "pyorb/orbit.py:Orbit.calculate_kepler"]}
{"id": "C92", "title": "degrees=True is accurate in IEEE double precision", "statement": "With moderate doubles, kep_to_cart(k, mu, degrees=True) returns a finite state that is the state of the orbit whose angles are the given degrees, to a few thousand units in the last place times the number of turns and the conditioning of the orbit; cart_to_kep(x, mu, degrees=True) returns finite elements whose angles, read as degrees, are those of the orbit through x. No intermediate overflow, underflow or NaN spoils the result. An Orbit with degrees=True shows sets that agree in the same sense after orb.kepler = v and after orb.cartesian = v.", "quantifier": "all doubles of moderate size (angles in degrees up to any stated number of turns), every accurate mathematics library, every number of orbits in the object", "why_tests_cant": "for all inputs: the degree conversion rounds, multiplies the angle error by the number of turns, and could underflow for small angles", "anchors": ["pyorb/kepler.py:kep_to_cart", "pyorb/kepler.py:cart_to_kep", "pyorb/orbit.py:Orbit.kepler", "pyorb/orbit.py:Orbit.cartesian"]}
{"id": "C93", "title": "Periods and speeds are ordered in IEEE double precision", "statement": "For all positive finite doubles, including those for which intermediate results overflow or underflow: orbital_period is never NaN, and a larger semi-major axis or a smaller gravitational parameter never gives a shorter computed period. On one orbit (elliptic or hyperbolic) orbital_speed is never smaller closer to the centre, and is not NaN closer to the centre if it is not NaN farther away. For sizes between 2^-100 and 2^100 the period is finite and correct to 14 units in the last place. The same holds of the list orb.period.", "quantifier": "all positive doubles for the order (speed: 1/a must not overflow), all moderate ones for the accuracy; every object with any number of orbits in every mode", "why_tests_cant": "order statements about all pairs of doubles through overflow and underflow", "anchors": ["pyorb/kepler.py:orbital_period", "pyorb/kepler.py:orbital_speed", "pyorb/orbit.py:Orbit.period"]}
{"id": "C94", "title": "A change of units by powers of two changes no digit", "statement": "If lengths are multiplied by 2^i and speeds by 2^j (so the gravitational parameter by 2^(i+2j)), then the rounded computations of cart_to_kep, kep_to_cart, orbital_period and orbital_speed give the old result in the new units, digit for digit: eccentricity, inclination and angles are the same floating-point numbers, lengths, speeds and periods are the old ones times the power of two. No branch (circular, planar, bound or unbound, NaN, error) changes. So no absolute threshold is hidden in these functions. In IEEE binary64 this holds for sizes away from overflow and underflow.", "quantifier": "all integers i, j; every rounding without exponent limits and every math library; all inputs (scalars, arrays, infinities, NaN, wrong shapes), degrees or radians, scalar or array mu; binary64: all regular states and elements of moderate size", "why_tests_cant": "equality of the last digit for all inputs and all powers; tests compare with a tolerance at a few sizes", "anchors": ["pyorb/kepler.py:cart_to_kep", "pyorb/kepler.py:kep_to_cart", "pyorb/kepler.py:orbital_period", "pyorb/kepler.py:orbital_speed"]}
{"id": "C95", "title": "Orbit objects do not depend on the units", "statement": "Take an Orbit object and the same object in other units: lengths times 2^i, speeds times 2^j, masses times 2^l, G times 2^(i+2j-l). Then any sequence of method calls (assignments, reads, updates, propagation, deletion, addition, iteration, changes of type and flags, failing calls), with every argument in the new units, raises the same exceptions and leaves the same object in the new units, digit for digit in rounded arithmetic. Every getter returns the old value in the new units, and so do the constructor, indexing and copying. In particular propagate by 2^(i-j) dt gives the same anomalies, and no flag, cache or stored value depends on the units.", "quantifier": "all integers i, j, l; every rounding without exponent limits, every math library, every content of uninitialised memory; all objects, all finite sequences of method calls; whole states assigned as arrays with six rows", "why_tests_cant": "equality of the last digit for all objects, all histories and all powers", "anchors": ["pyorb/orbit.py:Orbit", "pyorb/orbit.py:Orbit.propagate", "pyorb/orbit.py:Orbit.update", "pyorb/orbit.py:Orbit.add", "pyorb/orbit.py:Orbit.__init__"]}
{"id": "C96", "title": "Equinoctial conversions and distances do not depend on the units", "statement": "With lengths multiplied by 2^i and speeds by 2^j, kep_to_equi, equi_to_kep, cart_to_equi and equi_to_cart give the old result in the new units, digit for digit in rounded arithmetic, for every argument (arrays, wrong shapes, NaN, degrees, any solver options), and so do elliptic_radius, parabolic_radius, hyperbolic_radius, orbital_distance and the two angular momentum functions.", "quantifier": "all integers i, j; every rounding without exponent limits, every math library, all arguments", "why_tests_cant": "equality of the last digit for all inputs and all powers", "anchors": ["pyorb/kepler.py:kep_to_equi", "pyorb/kepler.py:equi_to_kep", "pyorb/kepler.py:cart_to_equi", "pyorb/kepler.py:equi_to_cart", "pyorb/kepler.py:orbital_distance"]}
{"id": "C97", "title": "kep_equivalent does not depend on the unit of length", "statement": "Whether kep_equivalent finds two sets of elements equivalent does not depend on the unit in which the semi-major axes are given (metres, kilometres, astronomical units).", "quantifier": "all finite elements, all positive factors", "why_tests_cant": "the answer changes only for some sizes of the semi-major axis; a claim about all factors", "anchors": ["pyorb/kepler.py:kep_equivalent"]}
{"id": "C98", "title": "An Orbit with degrees=True is the Orbit with degrees=False with its angles in degrees", "statement": "Two Orbit objects that differ only in the degrees setting, the stored angles of the first being those of the second in degrees, stay so under any sequence of method calls whose angle arguments are given in degrees and in radians respectively; the calls raise the same exceptions; Cartesian states, a, e, periods, speeds and apsides read from the two are equal, angles and mean motion differ by the unit only.", "quantifier": "all objects, all finite sequences of method calls and all their arguments, exact arithmetic", "why_tests_cant": "all histories; a test compares one object with another at a few points", "anchors": ["pyorb/orbit.py:Orbit"]}
{"id": "C99", "title": "An ephemeris loop conserves energy, angular momentum and the eccentricity vector and loses at most the tolerance per call", "statement": "However many times orb.propagate is called on an elliptic orbit, with whatever intervals and with any attributes read in between, the elements other than the anomaly do not change, and the specific energy, angular momentum vector and eccentricity vector of orb.cartesian are exactly those of the initial state, even if the Kepler solver does not converge. When it converges, the state after N calls is that of the Newtonian trajectory at the summed time up to N times the solver tolerance (type mean: up to one tolerance).", "quantifier": "all elliptic orbits, all finite sequences of intervals and reads, all anomaly types, degrees or radians, direct and lazy update, exact arithmetic", "why_tests_cant": "a claim about loops of every length; a test sees the drift of one loop only", "anchors": ["pyorb/orbit.py:Orbit.propagate"]}
{"id": "C100", "title": "Orbits stored in one object do not influence one another", "statement": "What an Orbit shows for one of its orbits (Kepler elements, Cartesian elements, the three anomalies) after any sequence of assignments to orb.kepler, orb.cartesian, orb.r, orb.v, one Kepler or Cartesian element or one of the three anomalies, propagate calls, reads, and additions or deletions of other orbits depends only on the settings and on what was assigned to that orbit: an object with other orbits, in another number, treated alike in that orbit shows the same numbers, digit for digit. In particular orb[i], worked with alone, stays equal to orbit i of orb.", "quantifier": "every pair of objects, number and position of orbits, all finite programs, all anomaly types, degrees or radians, direct and lazy update, every arithmetic including binary64; the elements of the orbit contain no NaN", "why_tests_cant": "two-run (noninterference) property over all contents of the other orbits and all programs", "anchors": ["pyorb/orbit.py:Orbit.propagate", "pyorb/orbit.py:Orbit.kepler", "pyorb/orbit.py:Orbit.cartesian", "pyorb/orbit.py:Orbit.__getitem__"]}
