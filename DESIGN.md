# Formal model of danielk333/pyorb in Rocq (Coq 8.16.1)

Everything lives in `rocq/theories` (logical name `Verif`). The code in `/repo` was read as text and never run.
`properties.jsonl` lists the properties, `MANIFEST.json` says which theorems settle which property,
`seeded/LOG.jsonl` records the wrong programs the theorems were tried against.

## 1. Layout and modelling approach

| layer | files | content |
|---|---|---|
| arithmetic | `NP.v` | `Class NP F`: the numpy scalar operations the code uses, element-wise maps, boolean-mask reads and writes, `np.empty` as an *arbitrary* buffer, exceptions as values |
| instances | `NPReal.v` | `num = Fin R \| PInf \| NInf \| NaN`: IEEE-like special values, exact real arithmetic for finite values |
| | `NPFloat.v` | `NP_rd rd L`: the same special values, each `+ - * / sqrt` rounded by `rd`, library functions arbitrary (`L`) |
| | `NPB64.v` | `NP_b64 L`: IEEE 754 binary64 (Flocq): signed zeros, subnormals, infinities, NaN, overflow; library functions arbitrary (`L`) |
| | `NPToy.v`, `NPToyN.v` | computable integer arithmetics, only used to evaluate concrete cases |
| model | `KeplerModel.v`, `ConvModel.v`, `UnitModel.v`, `OrbitModel.v` | the code, function by function, generic in `F`; each definition cites file and lines |
| | `DtypeModel.v`, `DtypeOrbit.v` | the conversions and the anomaly setters again, with the dtype (float64 or integer) of the argument arrays: every store into a buffer of an integer dtype truncates |
| | `LiveModel.v` | plain assignment of `M0`, `G`, `degrees`, `solver_options` and programs mixing it with operations; in-place changes of the `solver_options` dictionary are not modelled |
| | `StrModel.v` | `Orbit.__str__`; how one number is printed (`f'{x:<.4e}'`, `f'{n}'`) is a parameter |
| | `HeapModel.v` | the class `Orbit` again, with its arrays in memory: references, in-place writes, re-binding, copies |
| specification | `HeapSpec.v` | programs of a caller with arrays and objects, executed in memory and on values |
| | `Spec.v`, `ArraySpec.v`, `OrbitSpec.v` | vectors, energy, angular momentum, eccentricity vector, angles; shapes and entries; histories, widths, consistency. Independent of the model's helpers |
| lemmas | `Lists.v`, `ConvCols.v`, `RealBase.v`, `KepReal.v`, `CartReal.v`, `CartInv.v`, `AnomReal.v`, `EllState.v`, `LagTrig.v`, `LagReal.v`, `HypTrig.v`, `LagHyp.v`, `NewtonUniq.v`, `FloatBase.v`, `FloatAcc.v`, `FloatLag.v`, `LagRobust.v`, `FloatLagG.v`, `FloatConvG.v`, `FloatVec.v`, `FloatC2K.v`, `FloatC2KCol.v`, `FloatC2KAcc.v`, `ElemPert.v`, `FlowPert.v`, `FlowTraj.v`, `B64Sim.v`, `B64Pi.v`, `B64Lib.v`, `B64K2C.v`, `B64C2K.v`, `OrbitLists.v`, `OrbitBase.v`, `OrbitOps.v`, `OrbitSetters.v`, `OrbitInv.v`, `OrbitGet.v`, `OrbitReal.v`, `HeapSim.v` | array code is column-wise; closed forms; real analysis; invariants |
| theorems | `Props*.v` | the property theorems, each with a non-trivial `Example` next to it |

Shallow embedding. A method of `Orbit` is a function from the object to the object after the call and the value or exception
(so the state after a call that raises half-way is modelled). A function that mutates its argument returns the argument's final contents next to
its result. Loops are structural or fuelled recursion; fuel is the code's own limit (`max_iter` in the solver) or is proved immaterial (C64).

The model is generic in the arithmetic. Theorems about control flow, masks, caching and exceptions are proved for **every** instance of `NP`
(rounded binary64 included); numerical theorems are proved for the exact instance, C62, C69, C77-C86, C95, C96 and parts of C87 and C94 for rounded instances, C88-C94 for binary64 (C90 and C92 carry C77, C83-C85 over to it, C91 C88 together with C90).

Naming: `Cnn_...` belongs to property Cnn. `..._partial`: a part of the property, the note in the manifest says what is missing.
`..._refuted`: the property (or the named part) is false of the code; the theorem exhibits the witness.

## 2. What is modelled

* `pyorb/kepler.py`: every function.
* `pyorb/unit.py`: every function (`angle_units` for any wrapped function of positional and keyword arguments).
* `pyorb/const.py`: the class `_const` and the constants used by the conversions.
* `pyorb/orbit.py`: every public method and property of `Orbit` except those listed below, including the caches, the update flags,
  the read-only flags, the iterator position and the order of effects before an exception.

### Not modelled
* `epoch` (stored, never used), `dtype` (always float64), prints, `_const_docs.py`, `version.py`, `__init__.py`.
* dtypes other than float64 outside `DtypeModel.v`/`DtypeOrbit.v`; there: float32, unsigned and complex arrays and overflow of integers. 3-d inputs to the conversions, Python lists as values of elements (assigning a list behaves as the array).
* index forms other than integers, integer lists, boolean masks and slices (tuples, `None`, `Ellipsis`).
* n-dimensional arrays (n > 1) with negative strides.
* 2-d values where one number per orbit is meant: `orb.velocity = v` with `v` of shape (3,1) or (3,N), which numpy would broadcast, raises ValueError in the model; `propagate(dt)` with a 2-d `dt`.
* aliasing other than that of `HeapModel.v`: there every array attribute of an `Orbit` is a reference, in-place writes and re-binding are
  distinguished, getters allocate, and the caller may write to any array it holds; argument arrays are read when a call starts, an array assigned
  to `orb.m` is 1-dimensional, views of arrays (`x[1:]`) held by the caller are not modelled. In `OrbitModel.v` arrays are values; C68 says when that is right.
* overflow and underflow in the exact instance; signed zeros in all instances but `NP_b64` (`x/0` has the sign of `x`); infinities as arguments of arctan2.

### Reading choices (trusted)
* `np.empty` returns arbitrary contents, given by an oracle per buffer and position; theorems quantify over the oracle.
* `x**2`, `x**3` are products; `np.radians/np.degrees` are one multiplication by the constant pi/180, 180/pi; `np.linalg.norm(.., axis=0)` is
  the square root of the left-to-right sum of squares; a scalar broadcast against an array fills it (`np.ones(shape)*x`).
* `np.nditer` visits an array in memory order (`Arr shape mem data` carries that order); ufuncs on n-dimensional arrays keep the axis order of their argument, on 1-dimensional ones the result is contiguous (numpy does not carry over a negative stride).
* `tan` at an exact pole is `PInf`.
* Python floats behave as `np.float64`: a division by zero gives an infinity or NaN. With plain Python floats the code raises ZeroDivisionError instead in a few scalar calls (`orbital_period(1.0, 0.0)`, `orb.mean_motion = 0.0`).
* `unit.get_G` strings are ASCII (`str.lower`).
* a float instance (`NP_rd`, `NP_b64`) has correctly rounded `+ - * / sqrt` and no fused operations. `np.pi` is the double nearest to pi (proved: `bpi_nearest`, B64Pi.v).
* the hypothesis `nan_arith` (C43) is what IEEE says of NaN and comparisons: `nan != nan`, other numbers compare; proved for binary64 (C88_arith).

## 3. Findings: properties that are false of the code

| property | what the code does | theorem |
|---|---|---|
| C10 | `cart_to_kep` returns an infinite semi-major axis for every parabolic state | `C10_parabola_refuted` |
| C11 | `kep_to_cart` negates `a` of hyperbolic columns in the caller's array; `cart_to_kep` leaves a (6,) argument reshaped when it raises | `C11_*_refuted` |
| C16 | hyperbolic/parabolic anomalies on the incoming leg are wrapped by 2 pi | `C16_*_refuted` |
| C22 | hyperbolic guess: log of a non-positive number for M <= -0.9 e | `C22_*_refuted` |
| C24 | uninitialised memory for NaN eccentricities; wrong pairing for arguments of different memory order | `C24_*_refuted` |
| C25 | the stated distance bound e of the starting guess is false ((pi-2)e holds) | `C25_*_refuted` |
| C34 | at an exactly retrograde planar orbit the equinoctial elements have a pole: in exact arithmetic `cart_to_equi` returns a nan element and the round trip a nan z (in binary64 tan(np.pi/2) is about 1.6e16 instead, which no theorem covers) | `C34_pole_refuted` |
| C35 | `kep_equivalent` is not symmetric and never compares the eccentricity | `C35_*_refuted` |
| C40 | constants are not shared between instances of `_const` | `C40_*_refuted` |
| C41 | `calc_eccentric_anomaly` of part of the orbits (type mean) replaces the cache by a shorter array | `C41_*_refuted` |
| C42, C48, C51, C53 | direct mode: assigning `type` moves the body; `add`/`update` recalculate orbits that were not selected | `C42/C48/C51/C53_*_refuted` |
| C43, C44, C45, C63 | lazy mode: writing one element of a stale side is lost or mixed with stale values | `C43/C44/C45/C63_*_refuted` |
| C44 | `orb.mean_anomaly = M[::-1]` on an object of type eccentric gives the orbits each other's anomaly (the solver loop walks memory order) | `C44_anomaly_order_refuted` |
| C44 | writing `orb.eccentric_anomaly = x`, x < 0, on the incoming leg of a hyperbola (type true) reads back x + 2 pi: true_to_eccentric reduces the hyperbolic eccentric anomaly mod 2 pi | `C44_incoming_refuted` |
| C65 | `orb.calc_true_anomaly(slice(None, None, -1))` on an object of type mean stores each orbit's anomaly with another orbit | `C65_reverse_refuted` |
| C47 | read-only Kepler side: the equinoctial setter writes five elements before raising | `C47_*_refuted` |
| C49 | update flags are not copied by `orb[inds]`/`copy()` | `C49_*_refuted` |
| C50 | nested loops over one object share the iterator position | `C50_*_refuted` |
| C52 | `update(cartesian=.., ...)` silently ignores every other keyword | `C52_*_refuted` |
| C54 | `update(kepler=v)` raises for the (6,) vector the setter accepts | `C54_*_refuted` |
| C57 | `propagate` wraps hyperbolic mean anomalies and uses the elliptic rate for parabolas | `C57_*_refuted` |
| C58 | the setters of `period` and `mean_motion` raise TypeError in every state | `C58_*_refuted` |
| C60, C61 | `speed`, `periapsis` of hyperbolas and parabolas are NaN or wrong | `C60/C61_*_refuted` |
| C62 | outside its hypotheses: NaN inclination when the computed cross product cancels to 0, or its square underflows | `C62_cancellation_refuted`, `C62_underflow_refuted` |
| C63 | `orb.equinoctial` of a single orbit of type true/eccentric in radians raises TypeError | `C63_single_refuted` |
| C67 | integer arrays: `cart_to_kep` returns every elliptic orbit with e = 0, omega = 0; `kep_to_cart(degrees=True)` erases the angles in the caller's array; anomaly conversions and setters store truncated radians; `cart_to_equi`, `equi_to_cart` work on truncated elements | `C67_*_refuted` |
| C68 | `orb.m` is the live array: writing to it changes the object until `add`/`delete` replaces it; `b.m = a.m` makes two objects share masses | `C68_mass_refuted` |
| C69 | `mean_to_eccentric` of a parabola returns -inf in floating point for M < -1.4e8 (cancellation) | `C69_parabola_refuted` |
| C70 | incoming hyperbola near e = 1: the guess is about 0, the first Laguerre step is M/(e-1) and the solver runs out of iterations (with binary64, sinh overflows) | `C70_incoming_refuted` |
| C71 | lazy mode, both sides stale (`orb.kepler = k; orb.x = 1`): `kepler` reads differently before and after reading `cartesian` | `C71_both_stale_refuted` |
| C72 | lazy mode: `print(orb)` shows the stored arrays, stale or not (NaN state after `orb.kepler = k`) | `C72_lazy_refuted` |
| C74 | lazy mode, type eccentric or mean: `orb.anom = v; orb.x = 3` changes y, z and the velocity as well (five new elements, the anomaly of the stale state) | `C74_stale_refuted` |
| C75 | `orb.M0 = x`, `orb.G = x`, `orb.degrees = b` on a live object make nothing stale: the elements read afterwards contradict each other under the new value, in lazy and direct mode | `C75_*_refuted` |
| C76 | inside the 1e-9 limits the round trip through Kepler elements is not exact (the error is proved below 3e-8 relative) | `C76_exact_refuted` |
| C97 | `kep_equivalent` applies the absolute tolerance of np.isclose to the semi-major axis, so its answer depends on the unit of length | `C97_unit_refuted` |
| C98 | `orb.equinoctial = v` with a (6,) array (what the getter returns for one orbit) raises TypeError for an Orbit in radians and succeeds for the same Orbit in degrees | `C98_vector_refuted` |
| C98 | `orb.mean_anomaly = M[::-1]` (a reversed view) on an Orbit of type eccentric stores the anomalies in the wrong order in radians, in the right order in degrees | `C98_reversed_refuted` |
| C83 | an angle read from an arccosine near 0 or pi keeps half of the digits only: for every C there is a float state whose node angle is off by more than C u/(e(1-e) sin i) (the proved bound is of the order of the square root) | `C83_exact_refuted` |
| C89 | a state at the (rounded) velocity of escape can get a negative semi-major axis in double precision, because `e >= 1` and the sign of the energy are rounded independently, and `kep_to_cart` of these elements is NaN | `C89_ellipse_refuted`, `C89_hyperbola_refuted` |

## 4. How the properties are proved

"R" = exact reals, "any F" = every arithmetic, "hist" = induction over operation sequences, "refute" = a witness is proved.

| id | model used | how proved |
|---|---|---|
| C01-C05 | `kep_to_cart` column | R, algebra with cos^2+sin^2=1, sqrt |
| C06-C10 | `cart_to_kep`, `kep_to_cart` | R, the four (circular/planar) branches, acos/atan quadrant lemmas; C10 refute |
| C11 | final contents of the argument | any F / R; refute for hyperbolic `kep_to_cart` |
| C12 | input type `kinput` | any F, case analysis |
| C13 | array level model with masks | any F, map normal form, independence of the buffers |
| C14 | all conversions | R |
| C15-C17 | anomaly conversions | R, half-angle identities, MVT and IVT; C16 refute |
| C18 | `laguerre_solve_kepler` | any F, induction on fuel |
| C19-C23 | solver, guesses | R; C22 refute |
| C24 | array versions | any F; refute |
| C25 | guesses | R; refute |
| C26-C31 | scalar functions, Stumpff series, matrices | R |
| C32-C34 | equinoctial conversions | R, atan2 lemmas |
| C35 | `kep_equivalent` | R; refute |
| C36-C38 | `unit.py` | strings, any F / R |
| C39-C40 | `const.py` | hist; C40 refute |
| C41-C54, C58, C59, C64, C65 | `Orbit` state machine with exceptions | any F, hist; refutations on the real or toy instances |
| C55-C57, C60, C61, C63 | `Orbit` and numeric theorems | R; ODE by derivatives |
| C66 | solver, guesses, `Orbit` | R: trigonometric inequalities by derivatives; a potential (distance right of the root, 5/2 of it left of the root) shrinks by 5/6 per step; mirror symmetry at pi |
| C70 | solver, hyperbolic guess | R: hyperbolic inequalities by derivatives; the same kind of potential shrinks by 9/10 per step; refuted for M < 0 |
| C71, C72, C74, C75 | `Orbit` state machine, `__str__`, attribute assignment | any F, hist: one side of an orbit is pinned by every read; refute |
| C76 | `cart_to_kep`, `kep_to_cart` | R: the frame read off a tilted or rounded orbit is compared with the true frame, norm inequalities |
| C73 | `cart_to_kep` | R: the transformed state has known elements, then C08 twice |
| C67 | typed model | any F: with float64 buffers the typed model is the model, columns stay independent; R with truncation: refute |
| C68 | heap model | any F: each method refines its by-value version and touches only cells of its object (one structural proof per method), separation invariant over programs; refute for `orb.m` |
| C62, C69 | rounded instances | Flocq FLX, round to nearest |
| C77 | `kep_to_cart`, rounded instances | error calculus: relative errors in units K u for the scale factors, absolute errors in units u for the rotation |
| C78 | elliptic anomaly conversions, rounded instances | arctan turns a relative error of S tan(x/2) into an absolute one (maximum of z/(1+z^2)); the solver's stopping test bounds the residual |
| C79 | Laguerre solver, rounded instances | exact step at least halves the distance to the root for e <= 1/4; rounded step within (63+abs E)u of it; residual test reached once the distance is below the tolerance |
| C80 | Orbit.propagate, rounded instances | C55/C56 with rounding: mean motion within 20u, floating mod keeps the error linear in the number of turns, then C79 |
| C81 | Laguerre solver, rounded instances | C66's potential argument with a perturbation of up to (1-e)^2/6800 per step (LagRobust.v), rounded step within 10000u/(1-e)^2 of the exact one (FloatLagG.v), near the root a contraction by 1/10; chord identity for the true anomaly |
| C82 | Orbit.propagate, rounded instances | C80 with C81 in place of C79 |
| C83 | `cart_to_kep`, rounded instances | absolute errors relative to norm products (FloatVec.v), closed form of a column (FloatC2KCol.v), robustness of acos with the sign choice (FloatC2K.v) |
| C84 | `kep_to_cart` after `cart_to_kep`, rounded instances | the state as three rotations of a planar vector: chords of the four angles from C83, scale factors to 2500u/(1-e), then C77 at the computed elements |
| C85 | `cart_to_kep` after `kep_to_cart`, rounded instances | perturbation of the elements under a perturbation d of the state (ElemPert: energy, angular momentum, eccentricity vector, node; angles move by at most 30 d/(e(1-e) sin i)), then C83 at the perturbed elements |
| C86 | assignment to `cartesian`, `propagate`, reading `cartesian`, rounded instances | elements from C83, their deviation carried along the motion (FlowPert, FlowTraj: Kepler's equation for nearby eccentricities, mean motion, chords of the eccentric anomaly), then C82 at the computed elements |
| C87 | `propagate` and reading `cartesian`, exact and rounded instances | Newton's equation has one solution through a state with r x v != 0 (NewtonUniq: conserved angular momentum and energy keep the distance above a bound, the attraction is Lipschitz there, Gronwall); with C56 every solution is the Kepler motion, so C66, C70, C82 and C86 are restated against any solution of the differential equation on an open interval around 0 and dt |
| C88 | histories of an Orbit, binary64 | the theorems C41-C43 hold for every arithmetic with `nan_arith`; comparisons of Flocq's data are a trichotomy outside NaN |
| C89 | `cart_to_kep`, `kep_to_cart`, binary64 | refute: two witnesses computed with Flocq's operations, energy and angular momentum of the exact state by rational arithmetic; positive part from C83 |
| C90 | `kep_to_cart`, `cart_to_kep`, binary64 | simulation (B64Sim): next to each double its real value with a grid 2^k it lies on, a lower bound if not zero and an upper bound; the bounds are propagated through every operation of a column, so no operation leaves the normal range unless exact; then C77, C83-C85 |
| C91 | `Orbit` kepler/cartesian setters and getters, histories, binary64 | the invariant of C88 gives the conversion of which the stored sets are arguments and result; C90 bounds it |
| C92 | `kep_to_cart`, `cart_to_kep` and `Orbit` with degrees=True, binary64 | np.radians and np.degrees as one product with a rounded constant stay inside the grid and bounds of the simulation of C90 |
| C93 | `orbital_period`, `orbital_speed`, `orb.period`, binary64 | each operation is the clamped rounding of a real one, and clamping and rounding are monotone |
| C94 | `cart_to_kep`, `kep_to_cart`, `orbital_period`, `orbital_speed`, units changed by powers of two | relation `sc k`: one value is 2^k times the other; preserved by every operation because rounding commutes with 2^k (`digits`), and every threshold in the code is a pure number |
| C95 | the whole Orbit object, units changed by powers of two | `so` maps an object and `uop` a method call to the new units; `msim` (a method commutes with `so`) is proved for every method and carried over to histories by induction |
| C98 | the whole Orbit object, degrees=True against degrees=False | `sd` maps an object and `dop` a method call to degrees; `dsim` (a method commutes with `sd` and keeps the setting) is proved for every method and carried over to histories by induction |
| C99 | loops of `Orbit.propagate` and reads | invariant `held` (elements other than the anomaly, settings, flags) with `at_nu` (the Cartesian state read) and `off` (error of the mean anomaly), by induction over the loop |
| C100 | two objects run side by side | any F, relation `shows` (what the reads return for one orbit) kept by every step, conversions of one orbit are functions of that orbit unless e is NaN |
| C96 | equinoctial conversions, radii, angular momenta, units changed by powers of two | C94 and the column-wise form of the conversions |

## 5. Trusted base
* the Coq 8.16.1 kernel, including `vm_compute` (used for concrete cases);
* the standard library axioms listed below (no axiom is added here, no other library's axiom is used);
* the hand transcription of the Python code into Gallina, under the reading choices of section 2;
* libraries used for lemmas only (their proofs are checked by the kernel): Coquelicot, Flocq.

### `Print Assumptions` per theorem
Generated from the build.

**`ClassicalDedekindReals.sig_forall_dec`, `ClassicalDedekindReals.sig_not_dec`, `Classical_Prop.classic`, `FunctionalExtensionality.functional_extensionality_dep`** (225 theorems):

* `PropsKep.v`: `C01_conic`, `C02_energy`, `C03_angular_momentum`, `C04_eccentricity_vector`, `C05_Omega`, `C05_inclination`, `C05_omega`, `C05_planar`
* `PropsCart.v`: `C06_elements`, `C07_roundtrip`, `C08_canonical`, `C09_roundtrip`, `C10_parabola_refuted`, `C10_parabola_partial`
* `PropsDegrees.v`: `C11_kep_to_cart_real_partial`, `C11_kep_to_cart_refuted`, `C14_mean_to_eccentric`, `C14_equinoctial`, `C24_real_partial`, `C24_nan_refuted`, `C24_order_refuted`
* `PropsEquiDeg.v`: `C14_equinoctial_all`, `C34_degrees`, `C34_cart_equi_cart`
* `PropsAnomalyR.v`: `C15_ellipse`, `C16_hyperbola_partial`, `C16_hyperbola_refuted`, `C16_hyperbola_far_refuted`, `C16_parabola_partial`, `C16_parabola_refuted`, `C17_kepler_equation`, `C21_parabola_exact`, `C21_inverse`
* `PropsSolver.v`: `C19_laguerre_step`, `C19_iterates_finite`, `C20_ellipse`, `C22_hyperbola_partial`, `C22_hyperbola_refuted`, `C23_mean_true`, `C25_guess`, `C25_within_e_refuted`
* `PropsConverge.v`: `C66_mean_to_eccentric`, `C66_mean_to_true`, `C66_solver_converges`
* `PropsConvergeHyp.v`: `C70_mean_to_eccentric`, `C70_incoming_refuted`, `C70_solver_converges`, `C70_mean_to_true`
* `PropsScalar.v`: `C26_radii`, `C26_bounds`, `C26_degrees`, `C27_kepler_three`, `C28_speed`, `C28_elliptic`, `C29_asymptote`, `C31_axis`, `C31_euler`, `C31_frame`
* `PropsStumpff.v`: `C30_series`
* `PropsEqui.v`: `C32_equi_roundtrip`, `C33_kep_roundtrip`
* `PropsEquiCart.v`: `C34_roundtrip`
* `PropsConvergeOrbit.v`: `C66_cart_equi_cart`, `C66_anomaly_other`, `C66_type_from_mean`, `C66_advance`, `C66_additive`, `C66_propagate`, `C66_equinoctial_roundtrip`, `C66_equinoctial_readback`
* `PropsNearEqui.v`: `C34_roundtrip_all`
* `PropsEquiv.v`: `C35_reflexive`, `C35_decides_partial`, `C35_symmetric_refuted`, `C35_same_orbit_refuted`, `C35_full_circle_refuted`
* `PropsUnit.v`: `C36_values`, `C39_module`
* `PropsScale.v`: `C37_conversions`, `C37_period_speed`, `C37_get_G`
* `PropsOrbitType.v`: `C42_type_refuted`, `C48_elliptic_partial`, `C48_mean_partial`, `C48_direct_refuted`
* `PropsOrbitAnomaly.v`: `C44_anomaly_other_partial`, `C44_anomaly_order_refuted`
* `PropsConvergeHypType.v`: `C70_anomaly_other`, `C44_incoming_refuted`, `C70_type`
* `PropsOrbitItemR.v`: `C49_lazy_refuted`
* `PropsOrbitUpdateR.v`: `C51_add_direct_refuted`, `C53_direct_real_partial`, `C53_direct_refuted`
* `PropsOrbitPropR.v`: `C55_advance`, `C55_additive`, `C55_periodic`, `C55_additive_tol`, `C57_mean_partial`, `C57_hyperbolic_refuted`, `C57_parabolic_refuted`
* `PropsNewton.v`: `C56_newton`, `C56_trajectory`
* `PropsOrbitNewton.v`: `C56_propagate`
* `PropsConvergeHypOrbit.v`: `C70_propagate`
* `PropsOrbitDerived.v`: `C58_through_a`, `C59_velocity`, `C60_elliptic`, `C60_hyperbolic_refuted`, `C61_ellipse`, `C61_hyperbola_refuted`, `C61_parabola_refuted`
* `PropsFloat.v`: `C62_domain`, `C62_elements`, `C62_vector`, `C62_cancellation_refuted`, `C62_underflow_refuted`
* `PropsOrbitEquiR.v`: `C63_transfer_partial`, `C63_roundtrip_partial`, `C63_readback_partial`
* `PropsOrbitCalc.v`: `C65_calc_real_partial`, `C65_reverse_refuted`
* `PropsDtypeR.v`: `C67_integers`, `C67_cart_to_kep_refuted`, `C67_kep_to_cart_refuted`, `C67_eccentric_to_mean_refuted`
* `DtypeOrbit.v`: `C67_setter_refuted`
* `PropsDtypeEqui.v`: `C67_cart_to_equi_refuted`, `C67_equi_to_cart_refuted`
* `PropsFloatEll.v`: `C69_anomalies`, `C69_kep_to_cart`, `C69_parabola_refuted`
* `PropsOrbitReadR.v`: `C71_both_stale_refuted`
* `PropsOrbitStr.v`: `C72_lazy_refuted`
* `PropsSymmetry.v`: `C73_rotation`, `C73_reversal`
* `PropsNear.v`: `C76_roundtrip_all`, `C76_exact_refuted`
* `PropsFloatAcc.v`: `C77_kep_to_cart`, `C77_array`, `C77_degrees`
* `PropsFloatAnom.v`: `C78_true_eccentric`, `C78_eccentric_to_mean`, `C78_true_to_mean`, `C78_mean_to_eccentric`
* `PropsFloatLag.v`: `C79_converges`, `C79_mean_to_eccentric`, `C79_mean_to_true`, `C79_mean_to_cart`
* `PropsFloatProp.v`: `C80_propagate`
* `PropsFloatLagG.v`: `C81_converges`, `C81_mean_to_eccentric`, `C81_mean_to_true`, `C81_mean_to_cart`
* `PropsFloatPropG.v`: `C82_propagate`
* `PropsFloatC2K.v`: `C83_cart_to_kep`, `C83_array`, `C83_degrees`, `C83_angles`, `C83_exact_refuted`
* `PropsFloatRT.v`: `C84_roundtrip`
* `PropsFloatRTK.v`: `C85_roundtrip`, `C85_angles`
* `PropsFloatPropC.v`: `C86_propagate_cartesian`
* `PropsNewtonUniq.v`: `C87_unique`, `C87_motion`, `C87_follows`, `C87_propagate`, `C87_propagate_cartesian`, `C87_propagate_hyperbola`, `C87_float_kepler`, `C87_float_cartesian`
* `PropsB64.v`: `C88_rounding`, `C88_literal`, `C88_arith`, `C88_width`, `C88_direct`, `C88_lazy`, `C89_regular_partial`, `C89_ellipse_refuted`, `C89_hyperbola_refuted`
* `PropsB64Conv.v`: `C90_same_kep_to_cart`, `C90_same_cart_to_kep`, `C90_kep_to_cart`, `C90_cart_to_kep`, `C90_array`, `C90_kepler_roundtrip`, `C90_cartesian_roundtrip`
* `PropsB64Orbit.v`: `C91_kepler`, `C91_cartesian`, `C91_lazy`, `C91_direct`
* `PropsB64Deg.v`: `C92_kep_to_cart`, `C92_cart_to_kep`, `C92_kepler`, `C92_cartesian`
* `PropsB64Period.v`: `C93_period_monotone`, `C93_speed_monotone`, `C93_period_accurate`, `C93_orbit_period`
* `PropsFloatScale.v`: `C94_cart_to_kep`, `C94_kep_to_cart`, `C94_period_speed`
* `PropsB64Scale.v`: `C94_kep_to_cart_b64`, `C94_cart_to_kep_b64`, `C94_period_b64`
* `PropsOrbitScale.v`: `C95_history`, `C95_getters`, `C95_construct`
* `PropsEquiScale.v`: `C96_kep_equi`, `C96_cart_to_equi`, `C96_equi_to_cart`, `C96_sizes`, `C97_unit_refuted`, `C97_larger_unit_partial`, `C97_long_axes_partial`
* `PropsOrbitDegrees.v`: `C98_history_partial`, `C98_getters`, `C98_construct`, `C98_vector_refuted`, `C98_reversed_refuted`
* `PropsConserve.v`: `C99_conserved`, `C99_cartesian`, `C99_drift`
* `PropsPole.v`: `C34_pole_refuted`

**Closed under the global context** (no axiom) (128 theorems):

* `PropsArray.v`: `C11_cart_to_kep_partial`, `C11_cart_to_kep_matrix`, `C11_kep_to_cart_partial`, `C11_shape_after_exception_refuted`, `C12_validation`, `C12_valid_input_accepted`, `C13_cart_to_kep`, `C13_kep_to_cart`, `C13_equinoctial`
* `PropsDegrees.v`: `C14_cart_kep`, `C14_anomalies`
* `PropsAnomaly.v`: `C18_laguerre_terminates`, `C24_elementwise_partial`, `C24_shape_mismatch`
* `PropsStumpff.v`: `C30_nan_garbage`
* `PropsEquiCart.v`: `C34_route`
* `PropsUnit.v`: `C36_get_G`, `C38_off`, `C38_on`, `C38_bad_index`, `C38_false_out`, `C39_step`, `C39_immutable`, `C40_shared_refuted`, `C40_separate`, `C40_new_instance`
* `PropsOrbitWidth.v`: `C41_step`, `C41_history_partial`, `C41_derived`, `C41_full_refuted`, `C41_history_refuted`
* `PropsOrbitDirect.v`: `C42_step`, `C42_direct_partial`, `C42_failed_update_refuted`
* `PropsOrbitLazy.v`: `C43_reads_partial`, `C43_step`, `C43_mass_refuted`, `C43_failed_update_refuted`, `C43_stale_rows_refuted`, `C43_calculate_refuted`
* `PropsOrbitWrite.v`: `C44_cartesian`, `C44_kepler`, `C44_r`, `C44_v`, `C44_cart_row_partial`, `C44_kep_row_partial`, `C44_anomaly_partial`, `C44_stale_cart_lost`, `C44_stale_kep_lost`, `C44_stale_row_refuted`
* `PropsOrbitLost.v`: `C45_cartesian`, `C45_kepler`, `C45_cart_elements_partial`, `C45_kep_elements_partial`, `C45_stale_r_refuted`, `C45_one_by_one_refuted`
* `PropsOrbitModes.v`: `C46_kepler_side`, `C46_cartesian_side`, `C46_calculate_cartesian`, `C46_calculate_kepler`, `C47_kepler_partial`, `C47_cartesian`, `C47_type_partial`, `C47_equinoctial_refuted`, `C47_period_refuted`
* `PropsOrbitType.v`: `C48_values`
* `PropsOrbitItem.v`: `C49_stored`, `C49_raises`, `C49_getters_partial`, `C49_copy`, `C49_lazy_partial`, `C50_loop_partial`, `C50_reading`, `C50_nested_refuted`
* `PropsHeap.v`: `C49_independent`, `C68_by_value`, `C68_private`, `C68_frame`, `C68_arrays`, `C68_mass_refuted`
* `PropsOrbitUpdate.v`: `C51_delete`, `C51_delete_bad`, `C51_allocate`, `C51_add_empty`, `C51_add_keeps`, `C51_add_values`, `C51_add_raises_refuted`, `C52_elements_partial`, `C52_read_only`, `C52_ignored_refuted`, `C53_update_partial`, `C53_cartesian`, `C53_kepler`, `C53_elements`, `C53_direct_partial`, `C54_same_partial`, `C54_vector_refuted`
* `PropsOrbitDerived.v`: `C58_refuted`
* `PropsOrbitEqui.v`: `C63_single_refuted`, `C63_stale_lost_refuted`
* `PropsOrbitRec.v`: `C64_depth`, `C64_getters`
* `PropsOrbitCalc.v`: `C65_calc_partial`
* `PropsDtype.v`: `C67_float`, `C67_float_anomaly`, `C67_truncated`
* `DtypeOrbit.v`: `C67_float_setter`
* `PropsDtypeEqui.v`: `C67_float_equinoctial`, `C67_truncated_equinoctial`
* `PropsOrbitRead.v`: `C71_reads_partial`, `C71_anomalies_partial`, `C71_whole_write`, `C71_reads_fresh`
* `PropsOrbitStr.v`: `C72_shown_partial`
* `PropsOrbitFrame.v`: `C74_kepler`, `C74_anomaly`, `C74_cartesian_partial`, `C74_vectors_partial`, `C74_stale_refuted`
* `PropsOrbitLive.v`: `C75_width`, `C75_recover_lazy_partial`, `C75_recover_direct_partial`, `C75_M0_refuted`, `C75_G_refuted`, `C75_degrees_refuted`, `C75_direct_refuted`
* `PropsAlone.v`: `C100_alone`, `C100_item`

**`ClassicalDedekindReals.sig_forall_dec`, `FunctionalExtensionality.functional_extensionality_dep`** (1 theorems):

* `PropsStumpff.v`: `C30_recurrence`

**`ClassicalDedekindReals.sig_forall_dec`, `ClassicalDedekindReals.sig_not_dec`, `FunctionalExtensionality.functional_extensionality_dep`** (2 theorems):

* `PropsScalar.v`: `C31_add`
* `PropsFloatAcc.v`: `C77_ellipse_K`

