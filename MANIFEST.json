{
 "claims": [
  {
   "property": "C01",
   "status": "proved",
   "theorems": [
    "C01_conic"
   ],
   "note": ""
  },
  {
   "property": "C02",
   "status": "proved",
   "theorems": [
    "C02_energy"
   ],
   "note": ""
  },
  {
   "property": "C03",
   "status": "proved",
   "theorems": [
    "C03_angular_momentum"
   ],
   "note": ""
  },
  {
   "property": "C04",
   "status": "proved",
   "theorems": [
    "C04_eccentricity_vector"
   ],
   "note": ""
  },
  {
   "property": "C05",
   "status": "proved",
   "theorems": [
    "C05_Omega",
    "C05_inclination",
    "C05_omega",
    "C05_planar"
   ],
   "note": ""
  },
  {
   "property": "C06",
   "status": "proved",
   "theorems": [
    "C06_elements"
   ],
   "note": ""
  },
  {
   "property": "C07",
   "status": "proved",
   "theorems": [
    "C07_roundtrip"
   ],
   "note": ""
  },
  {
   "property": "C08",
   "status": "proved",
   "theorems": [
    "C08_canonical"
   ],
   "note": ""
  },
  {
   "property": "C09",
   "status": "proved",
   "theorems": [
    "C09_roundtrip"
   ],
   "note": ""
  },
  {
   "property": "C10",
   "status": "partial",
   "theorems": [
    "C10_parabola_refuted",
    "C10_parabola_partial"
   ],
   "note": "The property is false of the code: cart_to_kep returns an infinite semi-major axis for every parabolic state. Refuted for all parabolas; the other five elements are proved to round trip."
  },
  {
   "property": "C11",
   "status": "partial",
   "theorems": [
    "C11_cart_to_kep_partial",
    "C11_cart_to_kep_matrix",
    "C11_kep_to_cart_partial",
    "C11_kep_to_cart_real_partial",
    "C11_shape_after_exception_refuted",
    "C11_kep_to_cart_refuted"
   ],
   "note": "Proved for cart_to_kep on success and for kep_to_cart apart from hyperbolic columns. Refuted: kep_to_cart negates a of hyperbolic columns in the caller array, and cart_to_kep leaves a reshaped argument behind when it raises."
  },
  {
   "property": "C12",
   "status": "proved",
   "theorems": [
    "C12_validation",
    "C12_valid_input_accepted"
   ],
   "note": ""
  },
  {
   "property": "C13",
   "status": "proved",
   "theorems": [
    "C13_cart_to_kep",
    "C13_kep_to_cart",
    "C13_equinoctial"
   ],
   "note": ""
  },
  {
   "property": "C14",
   "status": "proved",
   "theorems": [
    "C14_cart_kep",
    "C14_anomalies",
    "C14_mean_to_eccentric",
    "C14_equinoctial",
    "C14_equinoctial_all",
    "C34_degrees"
   ],
   "note": "Exact arithmetic. C34_degrees is the same statement for cart_to_equi and equi_to_cart."
  },
  {
   "property": "C15",
   "status": "proved",
   "theorems": [
    "C15_ellipse"
   ],
   "note": ""
  },
  {
   "property": "C16",
   "status": "partial",
   "theorems": [
    "C16_hyperbola_partial",
    "C16_hyperbola_refuted",
    "C16_hyperbola_far_refuted",
    "C16_parabola_partial",
    "C16_parabola_refuted"
   ],
   "note": "Proved on the outgoing leg. Refuted on the incoming leg, where the result is wrapped by 2 pi as if the anomaly were periodic."
  },
  {
   "property": "C17",
   "status": "proved",
   "theorems": [
    "C17_kepler_equation"
   ],
   "note": ""
  },
  {
   "property": "C18",
   "status": "proved",
   "theorems": [
    "C18_laguerre_terminates"
   ],
   "note": ""
  },
  {
   "property": "C19",
   "status": "proved",
   "theorems": [
    "C19_laguerre_step",
    "C19_iterates_finite"
   ],
   "note": ""
  },
  {
   "property": "C20",
   "status": "proved",
   "theorems": [
    "C20_ellipse",
    "C66_mean_to_eccentric"
   ],
   "note": "C66_mean_to_eccentric removes the convergence condition for M in one revolution."
  },
  {
   "property": "C21",
   "status": "proved",
   "theorems": [
    "C21_parabola_exact",
    "C21_inverse"
   ],
   "note": ""
  },
  {
   "property": "C22",
   "status": "partial",
   "theorems": [
    "C22_hyperbola_partial",
    "C22_hyperbola_refuted",
    "C70_mean_to_eccentric",
    "C70_incoming_refuted"
   ],
   "note": "Proved whenever the starting guess is defined (M > -0.9 e). Refuted for M <= -0.9 e, where the guess takes the log of a non-positive number. C70 drops the condition that the solver stops, for M >= 0."
  },
  {
   "property": "C23",
   "status": "proved",
   "theorems": [
    "C23_mean_true",
    "C66_mean_to_true"
   ],
   "note": "C66_mean_to_true removes the convergence condition for M in one revolution."
  },
  {
   "property": "C24",
   "status": "partial",
   "theorems": [
    "C24_elementwise_partial",
    "C24_real_partial",
    "C24_shape_mismatch",
    "C24_nan_refuted",
    "C24_order_refuted"
   ],
   "note": "Proved for eccentricities that compare with 1 and arrays of equal memory order. Refuted for NaN eccentricities (uninitialised memory is returned) and for arguments of different memory order."
  },
  {
   "property": "C25",
   "status": "partial",
   "theorems": [
    "C25_guess",
    "C25_within_e_refuted"
   ],
   "note": "Finite, symmetric and exact at 0 and pi is proved; the distance bound of the property (e) is false and refuted, the bound (pi-2)e is proved."
  },
  {
   "property": "C26",
   "status": "proved",
   "theorems": [
    "C26_radii",
    "C26_bounds",
    "C26_degrees"
   ],
   "note": ""
  },
  {
   "property": "C27",
   "status": "proved",
   "theorems": [
    "C27_kepler_three"
   ],
   "note": ""
  },
  {
   "property": "C28",
   "status": "proved",
   "theorems": [
    "C28_speed",
    "C28_elliptic"
   ],
   "note": ""
  },
  {
   "property": "C29",
   "status": "proved",
   "theorems": [
    "C29_asymptote"
   ],
   "note": ""
  },
  {
   "property": "C30",
   "status": "proved",
   "theorems": [
    "C30_series",
    "C30_recurrence",
    "C30_nan_garbage"
   ],
   "note": "Every real input is covered; C30_nan_garbage shows that NaN elements are left uninitialised."
  },
  {
   "property": "C31",
   "status": "proved",
   "theorems": [
    "C31_axis",
    "C31_add",
    "C31_euler",
    "C31_frame"
   ],
   "note": ""
  },
  {
   "property": "C32",
   "status": "proved",
   "theorems": [
    "C32_equi_roundtrip"
   ],
   "note": "One column; C13_equinoctial extends it to every column of a matrix."
  },
  {
   "property": "C33",
   "status": "proved",
   "theorems": [
    "C33_kep_roundtrip"
   ],
   "note": "One column; C13_equinoctial extends it to every column of a matrix."
  },
  {
   "property": "C34",
   "status": "partial",
   "theorems": [
    "C34_route",
    "C34_roundtrip",
    "C66_cart_equi_cart",
    "C34_degrees",
    "C34_cart_equi_cart",
    "C34_roundtrip_all",
    "C34_pole_refuted"
   ],
   "note": "The route holds for any arithmetic. The round trip is for exact arithmetic, radians or degrees, degree 5, no condition on convergence. C34_roundtrip_all covers every elliptic state except exactly retrograde planar ones (pole of the equinoctial elements); its bound adds 3e-8 relative, which is needed inside the 1e-9 limits only (C34_cart_equi_cart: not outside). C34_pole_refuted: at every exactly retrograde planar elliptic state the full statement is false of the exact-number model, tan(pi/2) is infinite there, an element is nan and z comes back as nan. In binary64 np.tan(np.pi/2) is finite, so the code returns large numbers instead; that case is not covered by a theorem."
  },
  {
   "property": "C35",
   "status": "partial",
   "theorems": [
    "C35_reflexive",
    "C35_decides_partial",
    "C35_symmetric_refuted",
    "C35_same_orbit_refuted",
    "C35_full_circle_refuted"
   ],
   "note": "Reflexivity and the exact condition under which the code answers True are proved. Symmetry and soundness are false of the code and refuted: isclose is relative to its second argument, and the eccentricity is never compared."
  },
  {
   "property": "C36",
   "status": "proved",
   "theorems": [
    "C36_get_G",
    "C36_values"
   ],
   "note": "Strings are ASCII."
  },
  {
   "property": "C37",
   "status": "proved",
   "theorems": [
    "C37_conversions",
    "C37_period_speed",
    "C37_get_G"
   ],
   "note": ""
  },
  {
   "property": "C38",
   "status": "proved",
   "theorems": [
    "C38_off",
    "C38_on",
    "C38_bad_index",
    "C38_false_out"
   ],
   "note": ""
  },
  {
   "property": "C39",
   "status": "proved",
   "theorems": [
    "C39_step",
    "C39_immutable",
    "C39_module"
   ],
   "note": ""
  },
  {
   "property": "C40",
   "status": "partial",
   "theorems": [
    "C40_shared_refuted",
    "C40_separate",
    "C40_new_instance"
   ],
   "note": "The documented sharing is false of the code and refuted: the assignment to __dict__ goes through the overridden __setattr__, so every instance keeps its own constants."
  },
  {
   "property": "C41",
   "status": "partial",
   "theorems": [
    "C41_step",
    "C41_history_partial",
    "C41_derived",
    "C41_full_refuted",
    "C41_history_refuted"
   ],
   "note": "Proved for every history and any arithmetic, except calc_eccentric_anomaly of part of the orbits in type mean. That call replaces the cache array and breaks the alignment (refuted)."
  },
  {
   "property": "C42",
   "status": "partial",
   "theorems": [
    "C42_step",
    "C42_direct_partial",
    "C42_failed_update_refuted",
    "C42_type_refuted"
   ],
   "note": "Proved for every history without type assignment, mass or flag changes and failed calls. A call that raises half-way, and (in exact arithmetic) an assignment to type, break the property (refuted)."
  },
  {
   "property": "C43",
   "status": "partial",
   "theorems": [
    "C43_reads_partial",
    "C43_step",
    "C43_mass_refuted",
    "C43_failed_update_refuted",
    "C43_stale_rows_refuted",
    "C43_calculate_refuted"
   ],
   "note": "Invariant over every history for any arithmetic satisfying nan_arith: reads in either order give a pair of which one is the conversion of the other, except after mass changes, half-failed calls, and (eccentric/mean type) single-element writes to a stale side or calculate_cartesian with stale Kepler elements; each exception is refuted by a history."
  },
  {
   "property": "C44",
   "status": "partial",
   "theorems": [
    "C44_cartesian",
    "C44_kepler",
    "C44_r",
    "C44_v",
    "C44_cart_row_partial",
    "C44_kep_row_partial",
    "C44_anomaly_partial",
    "C44_anomaly_other_partial",
    "C44_anomaly_order_refuted",
    "C44_stale_cart_lost",
    "C44_stale_kep_lost",
    "C44_stale_row_refuted",
    "C66_anomaly_other",
    "C70_anomaly_other",
    "C44_incoming_refuted"
   ],
   "note": "Any arithmetic, every mode for whole arrays, r and v. Single elements: when the side written to is not stale (always so outside lazy mode), and the anomaly of the own type. An anomaly of another type: exact arithmetic, elliptic orbits, read back up to whole turns and (when Kepler's equation is solved) the tolerance. Refuted: writing one element of a stale side in lazy mode is lost; assigning a reversed view to mean_anomaly swaps orbits. Missing: anomalies of another type for parabolic and hyperbolic orbits, and rounding. The C66 theorems drop the condition that the solver stops. Hyperbolic orbits on the outgoing leg (eccentric anomaly in [0, 2 pi)): C70_anomaly_other; on the incoming leg a written eccentric anomaly x reads back as x + 2 pi (C44_incoming_refuted)."
  },
  {
   "property": "C45",
   "status": "partial",
   "theorems": [
    "C45_cartesian",
    "C45_kepler",
    "C45_cart_elements_partial",
    "C45_kep_elements_partial",
    "C45_stale_r_refuted",
    "C45_one_by_one_refuted"
   ],
   "note": "Any arithmetic, any later sequence of reads. Whole-array writes: full. Element writes: when the side written is not stale; otherwise the statement is false of the code (two refutations)."
  },
  {
   "property": "C46",
   "status": "proved",
   "theorems": [
    "C46_kepler_side",
    "C46_cartesian_side",
    "C46_calculate_cartesian",
    "C46_calculate_kepler"
   ],
   "note": "Any arithmetic, any history of setters and getters of one side in manual mode; the calculate calls then write exactly the other side."
  },
  {
   "property": "C47",
   "status": "partial",
   "theorems": [
    "C47_kepler_partial",
    "C47_cartesian",
    "C47_type_partial",
    "C47_equinoctial_refuted",
    "C47_period_refuted"
   ],
   "note": "Any arithmetic, any state. The Cartesian side is full; on the Kepler side the equinoctial setter writes five elements before raising and the period setter raises TypeError (both refuted)."
  },
  {
   "property": "C48",
   "status": "partial",
   "theorems": [
    "C48_values",
    "C48_elliptic_partial",
    "C48_mean_partial",
    "C48_direct_refuted",
    "C66_type_from_mean",
    "C70_type"
   ],
   "note": "C48_values: any arithmetic, every mode. Exact arithmetic, elliptic orbits, degrees or radians: position and Cartesian elements kept in lazy and manual mode (from type mean up to the solver tolerance, if it converged). In direct mode the assignment moves the body (refuted). The C66 theorems drop the condition that the solver stops. Hyperbolic orbits, lazy and manual mode, outgoing leg: C70_type."
  },
  {
   "property": "C49",
   "status": "partial",
   "theorems": [
    "C49_stored",
    "C49_raises",
    "C49_getters_partial",
    "C49_copy",
    "C49_lazy_partial",
    "C49_lazy_refuted",
    "C49_independent"
   ],
   "note": "orb[inds]/copy() take over settings, masses and both element sets of exactly the selected orbits, in order, and raise exactly for invalid indices; in direct and manual mode the cartesian, kepler, period and anomaly getters agree. Refuted in lazy mode: the update flags are not copied, so a copy returns the state of abandoned Kepler elements instead of the assigned Cartesian ones. Independence of later operations is proved in the memory model (C68)."
  },
  {
   "property": "C50",
   "status": "partial",
   "theorems": [
    "C50_loop_partial",
    "C50_reading",
    "C50_nested_refuted"
   ],
   "note": "A single loop (any body that keeps the number of orbits and does not iterate over the same object) ends after exactly num rounds and binds orb[j] in round j. Refuted for nested loops over one object: the position is shared and the outer loop stops after one round."
  },
  {
   "property": "C51",
   "status": "partial",
   "theorems": [
    "C51_delete",
    "C51_delete_bad",
    "C51_allocate",
    "C51_add_empty",
    "C51_add_keeps",
    "C51_add_values",
    "C51_add_raises_refuted",
    "C51_add_direct_refuted"
   ],
   "note": "delete, allocate and add without keywords hold in every mode; add with keywords gives the new orbits their values and, outside direct mode, keeps the existing ones. Refuted: in direct mode add(cartesian=..) recalculates the existing orbits (exact reals, omega = 9 becomes at most 2 pi); add on a read-only object raises after appending empty orbits."
  },
  {
   "property": "C52",
   "status": "partial",
   "theorems": [
    "C52_elements_partial",
    "C52_read_only",
    "C52_ignored_refuted"
   ],
   "note": "Holds for element keywords and for read-only sides. Refuted for cartesian=/kepler=: every other keyword (kepler=, m= in direct mode, x=, a=) is silently ignored."
  },
  {
   "property": "C53",
   "status": "partial",
   "theorems": [
    "C53_update_partial",
    "C53_cartesian",
    "C53_kepler",
    "C53_elements",
    "C53_direct_partial",
    "C53_direct_real_partial",
    "C53_direct_refuted"
   ],
   "note": "Outside direct mode orbits outside the selection keep masses, elements and flags (any keywords, also when the call raises), and the selected orbits get exactly the given values. In direct mode they are unchanged when their two element sets are conversions of each other (exact reals: elliptic, not circular, not planar, angles in [0, 2 pi)); refuted otherwise (omega = 9 of an unselected orbit is rewritten)."
  },
  {
   "property": "C54",
   "status": "partial",
   "theorems": [
    "C54_same_partial",
    "C54_vector_refuted"
   ],
   "note": "Equal for numbers and (6,1)/(6,N) arrays (whole state and outcome). Refuted for the (6,) vector the setter accepts: update raises ValueError unless there are six orbits."
  },
  {
   "property": "C55",
   "status": "proved",
   "theorems": [
    "C55_advance",
    "C55_additive",
    "C55_periodic",
    "C55_additive_tol",
    "C66_advance",
    "C66_additive"
   ],
   "note": "Elliptic orbits: mean anomaly advanced by n dt modulo a circle, other elements unchanged, additive and periodic exactly for type mean and up to the solver tolerance otherwise. The C66 theorems drop the condition that the solver stops."
  },
  {
   "property": "C56",
   "status": "proved",
   "theorems": [
    "C56_newton",
    "C56_trajectory",
    "C56_propagate",
    "C66_propagate"
   ],
   "note": "All conics: velocity is the derivative of position and r'' = -mu r/|r|^3 along the motion; propagate (elliptic) lies on that trajectory up to the solver tolerance. The C66 theorems drop the condition that the solver stops."
  },
  {
   "property": "C57",
   "status": "partial",
   "theorems": [
    "C57_mean_partial",
    "C57_hyperbolic_refuted",
    "C57_parabolic_refuted",
    "C70_propagate"
   ],
   "note": "Refuted: the mean anomaly of a hyperbolic orbit is wrapped into [0, 2 pi), and a parabolic orbit is advanced with the elliptic rate instead of sqrt(mu / (2 q^3)). The partial theorem says what is stored. C70_propagate gives the Cartesian states of hyperbolic orbits while M + n dt stays in [0, 2 pi)."
  },
  {
   "property": "C58",
   "status": "partial",
   "theorems": [
    "C58_refuted",
    "C58_through_a"
   ],
   "note": "Refuted: both setters take no value argument, so assigning raises TypeError in every state. Assigning a = ((P/2pi)^2 mu)^(1/3) instead gives the period P back."
  },
  {
   "property": "C59",
   "status": "proved",
   "theorems": [
    "C59_velocity"
   ],
   "note": ""
  },
  {
   "property": "C60",
   "status": "partial",
   "theorems": [
    "C60_elliptic",
    "C60_hyperbolic_refuted"
   ],
   "note": "Proved for ellipses. Refuted for hyperbolas: speed is NaN (2/r - 1/a with positive a) or wrong."
  },
  {
   "property": "C61",
   "status": "partial",
   "theorems": [
    "C61_ellipse",
    "C61_hyperbola_refuted",
    "C61_parabola_refuted"
   ],
   "note": "Proved for ellipses. Refuted for hyperbolas (periapsis is (1-e)a < 0) and parabolas (periapsis 0 instead of q)."
  },
  {
   "property": "C62",
   "status": "proved",
   "theorems": [
    "C62_domain",
    "C62_elements",
    "C62_vector",
    "C62_cancellation_refuted",
    "C62_underflow_refuted"
   ],
   "note": "Rounded instance of the model (NPFloat.v: round to nearest even with p>1 digits, unbounded exponents; library functions arbitrary). C62_domain is the stated property for any non-zero vector. C62_elements/C62_vector: if the computed angular momentum is not zero, cart_to_kep returns no NaN at all, with finite e and angles in the documented ranges (machine pi); needs only acos(1)=0, acos(-1)=pi and the range of acos from the library. The two refuted theorems show what the hypotheses exclude: cancellation in the cross product of a state with r x v <> 0, and underflow in binary64, both give a NaN inclination."
  },
  {
   "property": "C63",
   "status": "partial",
   "theorems": [
    "C63_transfer_partial",
    "C63_roundtrip_partial",
    "C63_readback_partial",
    "C63_single_refuted",
    "C63_stale_lost_refuted",
    "C66_equinoctial_roundtrip",
    "C66_equinoctial_readback"
   ],
   "note": "Elliptic orbits, e = 0 or e > 1e-9: the state survives reading and assigning (exactly for type mean, else within the solver tolerance) and the elements read back. False in the code, proved with C63_single_refuted and C63_stale_lost_refuted: a single orbit of type true/eccentric in radians raises TypeError, and in lazy mode an assignment over a stale Kepler side is lost. The C66 theorems drop the condition that the solver stops."
  },
  {
   "property": "C64",
   "status": "proved",
   "theorems": [
    "C64_depth",
    "C64_getters"
   ],
   "note": "Any arithmetic. C64_depth also shows that the recursion bound of the model is immaterial: every larger bound gives the same result; the example shows that a bound of 2 would not do."
  },
  {
   "property": "C65",
   "status": "partial",
   "theorems": [
    "C65_calc_partial",
    "C65_calc_real_partial",
    "C65_reverse_refuted"
   ],
   "note": "Any arithmetic, any index (for an integer index on an orbit of type mean with e = 0 the solver must agree with the shortcut, which C65_calc_real_partial proves in exact arithmetic). Type mean: false for slices with a negative step (C65_reverse_refuted: the orbits get each other's anomaly) and for calc_eccentric_anomaly of a part (C41_full_refuted: it replaces the whole attribute)."
  },
  {
   "property": "C66",
   "status": "proved",
   "theorems": [
    "C66_solver_converges",
    "C66_mean_to_eccentric",
    "C66_mean_to_true",
    "C66_cart_equi_cart",
    "C66_propagate",
    "C66_advance",
    "C66_additive",
    "C66_type_from_mean",
    "C66_anomaly_other",
    "C66_equinoctial_roundtrip",
    "C66_equinoctial_readback"
   ],
   "note": "Exact arithmetic, degree 5 (the code default), 0 <= e < 1 and M in [0, 2 pi]; conv_opts says that max_iter suffices for the tolerance and holds for the default options. The Orbit corollaries keep the other conditions of C44, C48, C55, C56 and C63: a mean anomaly within one revolution for the change of type, an inclination below 180 degrees and e = 0 or e > 1e-9 for the equinoctial round trip, no stale Kepler side in lazy mode for the read back."
  },
  {
   "property": "C67",
   "status": "partial",
   "theorems": [
    "C67_float",
    "C67_float_anomaly",
    "C67_float_setter",
    "C67_truncated",
    "C67_integers",
    "C67_cart_to_kep_refuted",
    "C67_kep_to_cart_refuted",
    "C67_eccentric_to_mean_refuted",
    "C67_setter_refuted",
    "C67_float_equinoctial",
    "C67_truncated_equinoctial",
    "C67_cart_to_equi_refuted",
    "C67_equi_to_cart_refuted"
   ],
   "note": "False of the code for integer arrays: the result buffers have the dtype of the argument. Proved for every arithmetic and every cast: float64 arrays (and, for the anomalies, arguments in degrees) give the results of the main model, so the other theorems apply; for integer arrays every returned element is a truncated value. Refuted over the reals: cart_to_kep of every elliptic state with integer components returns e = 0, omega = 0 and the floor of a; kep_to_cart in degrees overwrites angles below 45 degrees in the argument with 0; eccentric_to_mean and the mean_anomaly setter store truncated radians. cart_to_equi of every elliptic integer state returns h = k = 0; equi_to_cart of a circular integer orbit cannot have the right speed unless mu/a is an integer. Integer overflow, unsigned and float32 arrays are not modelled."
  },
  {
   "property": "C68",
   "status": "partial",
   "theorems": [
    "C68_by_value",
    "C68_private",
    "C68_frame",
    "C68_arrays",
    "C68_mass_refuted"
   ],
   "note": "Proved for every arithmetic and every program, in a model with memory cells and references (HeapModel.v): without reading or replacing the attribute m, executing in memory gives exactly the results of the by-value semantics (so OrbitModel.v and its theorems apply), objects change only by statements that act on them and arrays only by writes to them; with m handed out or shared, everything except masses is still private. Refuted for masses: x = orb.m is the array of the object until add or delete replaces it, and b.m = a.m makes two objects share it. Arguments are read when a call starts; views held by the caller are not modelled."
  },
  {
   "property": "C69",
   "status": "partial",
   "theorems": [
    "C69_anomalies",
    "C69_kep_to_cart",
    "C69_parabola_refuted"
   ],
   "note": "Rounded arithmetic with unbounded exponents, any library with trig_ok (sine within 1/1000, ranges of sine, cosine and arctan, exact fmod). Proved for the six anomaly conversions of elliptic orbits (every mean anomaly, any number of iterations) and for kep_to_cart of all orbit types where the computed 1 + e cos nu is positive. Refuted for parabolas: mean_to_eccentric returns -inf for every M below -2^(p/2+1), about -1.4e8 in binary64, where A + sqrt(A^2+1) cancels to 0."
  },
  {
   "property": "C70",
   "status": "partial",
   "theorems": [
    "C70_solver_converges",
    "C70_mean_to_eccentric",
    "C70_mean_to_true",
    "C70_incoming_refuted",
    "C70_propagate",
    "C70_anomaly_other",
    "C70_type"
   ],
   "note": "Exact arithmetic, degree 5 (the code default). Proved for every e > 1 and M >= 0: the iteration started from the guess reaches the tolerance, in at most m steps with 2 (e + 2 M + 3) 0.9^m < tol; the default options suffice up to e + 2 M + 3 = 1e200. Outgoing true anomalies with an eccentric anomaly below 2 pi return within tol/(e-1). False for M < 0 inside the range of the guess: for every option record there is an e near 1 and an M = -0.4 e for which the first step jumps far away, all iterations are used up and the returned anomaly is wrong by more than 20 (100000 for the default options). C70_propagate: Orbit.propagate of a hyperbolic orbit (all types and modes) reaches M + n dt up to the tolerance and the state read lies on the Newtonian trajectory, as long as M + n dt stays in [0, 2 pi). C70_anomaly_other, C70_type: writing an anomaly of another type, changing the type."
  },
  {
   "property": "C71",
   "status": "partial",
   "theorems": [
    "C71_reads_partial",
    "C71_anomalies_partial",
    "C71_whole_write",
    "C71_reads_fresh",
    "C71_both_stale_refuted"
   ],
   "note": "Any arithmetic, every mode, any reads in between; for lazy mode the orbit must not be stale on both sides (true after whole-state assignments, C71_whole_write, and kept by reads, C71_reads_fresh). False otherwise: C71_both_stale_refuted. Eccentricities are not NaN; for the anomalies the cache must still have one entry per orbit afterwards (calc_eccentric_anomaly of a part breaks that, C41_full_refuted)."
  },
  {
   "property": "C72",
   "status": "partial",
   "theorems": [
    "C72_shown_partial",
    "C72_lazy_refuted"
   ],
   "note": "Direct and manual mode, any arithmetic. Lazy mode: false, the stored arrays are shown even if stale (C72_lazy_refuted). The formatting of one number is a parameter."
  },
  {
   "property": "C73",
   "status": "proved",
   "theorems": [
    "C73_rotation",
    "C73_reversal"
   ],
   "note": "Exact arithmetic; inclination 0, pi or beyond the threshold, energy not 0."
  },
  {
   "property": "C74",
   "status": "partial",
   "theorems": [
    "C74_kepler",
    "C74_anomaly",
    "C74_cartesian_partial",
    "C74_vectors_partial",
    "C74_stale_refuted",
    "C45_stale_r_refuted"
   ],
   "note": "Any arithmetic. Kepler side and anomalies: every mode and state (eccentricity not NaN). Cartesian side: every state except lazy mode with the Cartesian elements stale, where it is false (C74_stale_refuted for orb.x, C45_stale_r_refuted for orb.r)."
  },
  {
   "property": "C75",
   "status": "partial",
   "theorems": [
    "C75_width",
    "C75_recover_lazy_partial",
    "C75_recover_direct_partial",
    "C75_M0_refuted",
    "C75_G_refuted",
    "C75_degrees_refuted",
    "C75_direct_refuted"
   ],
   "note": "Any arithmetic with IEEE NaN comparisons. Array widths: every program. Consistency: after the next whole-state assignment, lazy and direct mode. Without one it is false: the assignment makes neither side stale (C75_*_refuted). Manual mode and in-place changes of the solver_options dictionary are not covered."
  },
  {
   "property": "C76",
   "status": "proved",
   "theorems": [
    "C76_roundtrip_all",
    "C76_exact_refuted"
   ],
   "note": "Exact arithmetic. C76_exact_refuted: inside the limits the round trip is not exact."
  },
  {
   "property": "C77",
   "status": "proved",
   "theorems": [
    "C77_kep_to_cart",
    "C77_array",
    "C77_degrees",
    "C77_ellipse_K"
   ],
   "note": "Rounded arithmetic without overflow and underflow (standard model); the accuracy of sin and cos is a hypothesis on the mathematics library. C77_degrees is for single orbits."
  },
  {
   "property": "C78",
   "status": "proved",
   "theorems": [
    "C78_true_eccentric",
    "C78_eccentric_to_mean",
    "C78_true_to_mean",
    "C78_mean_to_eccentric"
   ],
   "note": "Rounded arithmetic without overflow and underflow; accuracy of sin, cos, tan, arctan, the exact remainder and exact halving are hypotheses (met by binary_lib). Elliptic orbits, scalars, radians. That the solver stops is a hypothesis of C78_mean_to_eccentric."
  },
  {
   "property": "C79",
   "status": "proved",
   "theorems": [
    "C79_converges",
    "C79_mean_to_eccentric",
    "C79_mean_to_true",
    "C79_mean_to_cart"
   ],
   "note": "Rounded arithmetic without overflow and underflow, library accuracy as hypotheses (met by binary_lib). Eccentricities up to 1/4, degree 5, scalars, radians; 1/4 < e < 1 is C81, with M in [0, 2 pi]. Not proved for hyperbolas."
  },
  {
   "property": "C80",
   "status": "proved",
   "theorems": [
    "C80_propagate"
   ],
   "note": "Rounded arithmetic without overflow and underflow, library accuracy as hypotheses (met by binary_lib). Eccentricities up to 1/4, degree 5, radians; any number of orbits and any of the three anomaly types. 1/4 < e < 1 is C82. Not proved for degrees, hyperbolas and parabolas."
  },
  {
   "property": "C81",
   "status": "proved",
   "theorems": [
    "C81_converges",
    "C81_mean_to_eccentric",
    "C81_mean_to_true",
    "C81_mean_to_cart"
   ],
   "note": "Rounded arithmetic without overflow and underflow, library accuracy as hypotheses (met by binary_lib). Degree 5, scalars, radians, M in [0, 2 pi + 30 u]."
  },
  {
   "property": "C82",
   "status": "proved",
   "theorems": [
    "C82_propagate"
   ],
   "note": "Rounded arithmetic without overflow and underflow, library accuracy as hypotheses (met by binary_lib). Degree 5, radians, lazy and direct mode; any number of orbits and any of the three anomaly types."
  },
  {
   "property": "C83",
   "status": "proved",
   "theorems": [
    "C83_cart_to_kep",
    "C83_array",
    "C83_degrees",
    "C83_angles",
    "C83_exact_refuted"
   ],
   "note": "Rounded arithmetic in binary formats without overflow and underflow; accuracy of arccos is a hypothesis (met by libm0_acos). Inclined ellipses away from the special cases (regular_kep). C83_exact_refuted: the square root in the angle bound cannot be removed."
  },
  {
   "property": "C84",
   "status": "proved",
   "theorems": [
    "C84_roundtrip"
   ],
   "note": "Rounded arithmetic in binary formats without overflow and underflow; accuracy of arccos, sin, cos as hypotheses (met by libm0_acos, binary_trig). Same orbits as C83; scalars, radians."
  },
  {
   "property": "C85",
   "status": "proved",
   "theorems": [
    "C85_roundtrip",
    "C85_angles"
   ],
   "note": "Rounded arithmetic in binary formats without overflow and underflow; accuracy of arccos, sin, cos as hypotheses (met by libm0_acos, binary_trig). Inclined ellipses away from the special cases (regular_kep2); scalars, radians."
  },
  {
   "property": "C86",
   "status": "proved",
   "theorems": [
    "C86_propagate_cartesian"
   ],
   "note": "Rounded arithmetic in binary formats without overflow and underflow; accuracy of the library as hypotheses (met by libm0_ok, libm0_acos, binary_lib). Radians, degree 5; mu is the machine number G*(M0+m)."
  },
  {
   "property": "C87",
   "status": "proved",
   "theorems": [
    "C87_unique",
    "C87_motion",
    "C87_follows",
    "C87_propagate",
    "C87_propagate_cartesian",
    "C87_propagate_hyperbola",
    "C87_float_kepler",
    "C87_float_cartesian"
   ],
   "note": "Solver degree 5 with options that reach the tolerance (conv_opts, hyp_opts: the defaults do). The floating point theorems carry the hypotheses of C82 and C86; the hyperbola theorem the range of C70."
  },
  {
   "property": "C88",
   "status": "proved",
   "theorems": [
    "C88_rounding",
    "C88_literal",
    "C88_arith",
    "C88_width",
    "C88_direct",
    "C88_lazy"
   ],
   "note": "binary64 data and operations are those of Flocq; library functions and np.mod arbitrary. C88_rounding, C88_literal: the instance is correctly rounded arithmetic with overflow to infinity. The histories are those of C41-C43 (what those exclude is refuted there)."
  },
  {
   "property": "C89",
   "status": "partial",
   "theorems": [
    "C89_regular_partial",
    "C89_ellipse_refuted",
    "C89_hyperbola_refuted"
   ],
   "note": "False: for a state at the computed velocity of escape the sign of the energy and the comparison e >= 1 are rounded differently, a is negative and the state computed from these elements is NaN, with every library. Proved for ellipses regular in the sense of C83 (C89_regular_partial without overflow and underflow, C90_cart_to_kep with); a sharp condition is missing."
  },
  {
   "property": "C90",
   "status": "proved",
   "theorems": [
    "C90_same_kep_to_cart",
    "C90_same_cart_to_kep",
    "C90_kep_to_cart",
    "C90_cart_to_kep",
    "C90_array",
    "C90_kepler_roundtrip",
    "C90_cartesian_roundtrip"
   ],
   "note": "IEEE binary64 (Flocq) with signed zeros, overflow and underflow. Library accuracy is the hypothesis lib64 (met by the correctly rounded library, lib_exact_ok). Moderate sizes: tame_kep, tame_cart; for the round trips also of the intermediate result. Radians."
  },
  {
   "property": "C91",
   "status": "proved",
   "theorems": [
    "C91_kepler",
    "C91_cartesian",
    "C91_lazy",
    "C91_direct"
   ],
   "note": "IEEE binary64 (Flocq). Moderate sizes: tame_kep, tame_cart of C90. Type true, radians. In C91_lazy and C91_direct which set is accurate depends on the last assignment, so the conclusion is a disjunction (accurate_pair). Orbits with a NaN in a set are excepted."
  },
  {
   "property": "C92",
   "status": "proved",
   "theorems": [
    "C92_kep_to_cart",
    "C92_cart_to_kep",
    "C92_kepler",
    "C92_cartesian"
   ],
   "note": "IEEE binary64 (Flocq). Moderate sizes: tame_kep_deg (the radians of the element angles are tame as in C90), tame_cart of C90. The object theorems are for type true."
  },
  {
   "property": "C93",
   "status": "proved",
   "theorems": [
    "C93_period_monotone",
    "C93_speed_monotone",
    "C93_period_accurate",
    "C93_orbit_period"
   ],
   "note": "IEEE binary64 (Flocq), all libraries. a**3.0 is read as a*a*a (reading choice of DESIGN.md): numpy calls pow, whose monotonicity is not promised by the C library. orb.period is read after orb.kepler."
  },
  {
   "property": "C94",
   "status": "proved",
   "theorems": [
    "C94_cart_to_kep",
    "C94_kep_to_cart",
    "C94_period_speed",
    "C94_kep_to_cart_b64",
    "C94_cart_to_kep_b64",
    "C94_period_b64"
   ],
   "note": "The first three hold for every rounding that does not depend on the exponent (round to nearest at any precision, no exponent limits) and for the exact numbers, with no condition on the input. The binary64 versions need moderate sizes (tame_kep, tame_cart), one orbit, radians. a**3.0 is read as a*a*a (DESIGN.md)."
  },
  {
   "property": "C95",
   "status": "proved",
   "theorems": [
    "C95_history",
    "C95_getters",
    "C95_construct"
   ],
   "note": "Every rounding that does not depend on the exponent (round to nearest at any precision, no exponent limits) and the exact numbers; both runs see the same uninitialised memory. One number or one row assigned to all six rows of a state (numpy broadcasting) has no consistent unit and is excluded by op_fits. a**3.0 is read as a*a*a (DESIGN.md)."
  },
  {
   "property": "C96",
   "status": "proved",
   "theorems": [
    "C96_kep_equi",
    "C96_cart_to_equi",
    "C96_equi_to_cart",
    "C96_sizes"
   ],
   "note": "Every rounding that does not depend on the exponent, and the exact numbers. semi_major_axis is not included: it calls the cube root of the math library, which need not commute with powers of two. Both runs see the same uninitialised memory."
  },
  {
   "property": "C97",
   "status": "partial",
   "theorems": [
    "C97_unit_refuted",
    "C97_larger_unit_partial",
    "C97_long_axes_partial"
   ],
   "note": "False: np.isclose applies its absolute tolerance 1e-8 to the semi-major axis, so axes of 1000 and 2000 are separated but 1e-9 and 2e-9 are not. Proved instead (exact arithmetic): a larger unit never separates equivalent elements; axes that differ by more than 2e-5 relative are separated in every unit in which the axis is at least 1/1000."
  },
  {
   "property": "C98",
   "status": "partial",
   "theorems": [
    "C98_history_partial",
    "C98_getters",
    "C98_construct",
    "C98_vector_refuted",
    "C98_reversed_refuted"
   ],
   "note": "Proved in exact arithmetic for every object and every history, for every method, with three restrictions on arguments: whole Kepler states have six rows; assigned anomalies and index slices lie in memory in order (numpy copies a reversed view when it converts degrees, so the two settings differ there: C98_reversed_refuted, mean anomalies assigned as a reversed view are stored in the wrong order in radians and in the right one in degrees); equinoctial elements are not given as a (6,) array. The last is a defect: assigning a (6,) array to orb.equinoctial raises TypeError in radians and succeeds in degrees (C98_vector_refuted). Both runs see the same uninitialised memory."
  },
  {
   "property": "C99",
   "status": "proved",
   "theorems": [
    "C99_conserved",
    "C99_cartesian",
    "C99_drift"
   ],
   "note": "Exact arithmetic. The loop is an inductive relation: propagate calls with scalar or array intervals, any reads in between (calc_eccentric_anomaly of all orbits only, see C41). In lazy mode the orbit must start with current Kepler elements or current Cartesian elements without nan, as it does after any whole assignment. C99_cartesian starts from orb.cartesian = v, away from the thresholds of cart_to_kep."
  },
  {
   "property": "C100",
   "status": "proved",
   "theorems": [
    "C100_alone",
    "C100_item"
   ],
   "note": "Every arithmetic with nan_arith (C88_arith: binary64). Direct and lazy mode; in lazy mode at least one side of the orbit is current (C71). Orbits whose elements contain NaN are excluded, there uninitialised memory is shown (C24). Assigning a part of the elements (orb.a = .., orb.x = .., orb.r = .., orb.v = ..) in lazy mode needs that set of elements to be current (C45, C74). The three anomaly setters are covered for arrays in C order (the same condition as in C44). Other orbits may be deleted at any time, and added in lazy mode with any keywords or in direct mode without keywords (with keywords a direct-mode object recomputes the stored elements of all its orbits, C51_add_direct_refuted). orb.velocity, orb.equinoctial, orb.m and orb.type = .. are not among the steps of the programs (orb.period = .. and orb.mean_motion = .. always raise). C100_item (orb[idx]) is for direct mode: in lazy mode orb[idx] does not copy the flags (C49)."
  }
 ]
}