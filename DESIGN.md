# Formal model of jaxoplanet in Coq 8.16.1

## Layout
* `rocq/theories/Base` real-number helpers (atan2, floor-mod, cbrt, sums, dicts, matrices, polynomial bounds);
* `Model/*` the model, about one file per Python module, every definition citing `file:lines` of /repo;
* `Spec/*` independent specifications (no proofs; they do not use the model's helpers except its data types);
* `Proof/*` lemmas;
* `Properties/*` only theorem statements closed by `exact`, `Print Assumptions`, and `Example`s showing that concrete cases meet the hypotheses.

`properties.jsonl` states the properties, `MANIFEST.json` maps them to theorems, `seeded/LOG.jsonl` records the wrong programs tried.

## Modelling conventions (simplifications)
* IEEE floats -> exact reals `R`. Rounding, NaN, infinities, signed zeros are not modelled. Where
  Python would produce NaN/inf (division by zero, sqrt of a negative, tan at a pole) the theorem carries
  an explicit definedness hypothesis; Coq's totalised values are never relied upon.
* `jnp.where(c,a,b)` -> `if`; comparisons by decidable equality/order on R.
* `finfo(dtype).eps` -> a universally quantified `eps > 0`.
* `roots_legendre(order)` -> an arbitrary list of (root, weight) pairs, or (C81, C88-C90) a rule satisfying the documented properties of
  Gauss-Legendre quadrature (`gauss_legendre`), whose existence for every order is proved (`C81_gauss_legendre_exists`).
* Exceptions -> constructors of a `result` type. `None` -> `option`.
* `x % p`, `jnp.mod` -> `x - p*floor(x/p)`. `arctan2` -> case definition with `atan2 0 0 = 0`.
* dict -> association list with Python's insertion-order update semantics.
* JAX: out-of-bounds reads clamp; BCOO.todense drops out-of-bounds and sums duplicates (documented).
* functions with caches (`CACHED_MATRICES`) -> state machines over arbitrary call histories.
* The orbit theorems are about the code's `kepler` (C01-C05, C65) where they say so, and otherwise for any exact solver of Kepler's equation (`exact_solver`); C65 bounds
  the distance between the two, and carries the bound to positions and radial velocities.

## Trusted base
* Coq 8.16.1's kernel, including its `vm_compute` conversion (used by the polynomial bounds behind C65, `MapLimit.even_bound_small` behind the 20-node statement of C81, and some
  examples). `coqchk`-style rechecking needs nothing else. No functors, no module types, no axioms, no `Admitted`, no plugins.
* Axioms, all from the standard library, as printed by `Print Assumptions` for each theorem (per theorem below): `sig_forall_dec`, `sig_not_dec`,
  `functional_extensionality_dep` (the standard library's construction of the real numbers) and `classic`. Coquelicot is used and adds no axiom.
* The fidelity of the hand-written model to the Python text: every definition cites its lines.
* What is assumed about library code, always as a hypothesis visible in the theorem statement or as a parameter characterised in `Spec/`:
  - `np/jnp.linalg.inv`: some right inverse (`right_inverse`; existence proved for the matrices used);
  - `jnp.linalg.solve` in `ylm_spot`: the normal equations have the returned vector as solution;
  - `mp.lu_solve`: relation `lu_solve_to`; `mp.quad`: `exact_quad` (an exact integrator); `U ** -1`: `inverse_of_U` (any inverse; the adjoint is one);
  - jax's `Rotation.from_rotvec(...).as_euler("zyz")`: `zyz_euler`, its documented meaning (an explicit function meeting it is given);
  - `jnp.interp(period=)`, `searchsorted`, `vmap`, `tree_map`, pint's conversions: modelled from their documentation (multiplicative units only).

## Modelled and not modelled
Every model definition cites its lines; an audit by script of cited line ranges against the functions of src/ was used to find gaps.
Modelled: every function of `core/kepler.py`, `core/limb_dark.py`, `light_curves/*`, `orbits/*`, `object_stack.py`, `units/*` (registry: as a table of units), `utils.py`,
`starry/core/*` (basis, polynomials, rotation, s2fft_rotation, solution, wigner3j), `starry/{ylm,surface,doppler,light_curves,orbit,system_observable,utils}.py`,
`starry/multiprecision/*`, and of `starry/visualization.py` what `show_surface` draws (image and graticule).
Not modelled: rounding; JAX tracing, jit, dtype promotion; autodiff except the two custom JVP rules (C06, C16) and the gradients of `core/limb_dark.py` of transit light curves, Keplerian orbits, starry occultations, starry light curves, starry radial velocities, and light curves and radial velocities of surface systems (C92, C93, C94, C95, C96, C97, C98, C99, on numbers carrying a tangent, with the rules of the primitives as documented by JAX); matplotlib calls, colours, contour circle;
`test_utils.py`; `__repr__`s and docstrings; mpmath and scipy internals; the abstract `proto.py` interface (an orbit is a record of functions in the model).
`ylm.py:ring_y` (an unfinished stub that always raises TypeError) and `multiprecision/utils.py:to_numpy, diff_mp` are not modelled. Times and parameters are scalars, arrays of times are element-wise (C23, C44, C67 treat the array
behaviour itself).

## Findings: properties a user expects that the code violates
Each has a `_refuted` theorem with a concrete counterexample, beside the `forall` theorem saying what the code does. In short: concentric equal disks (C08, C77, C78);
exposure integration with one sample (C19); overridden time_transit and units in TTVOrbit (C29, C66), its arrays of times with several planets (C67); omega = -90 deg given with time_transit (C35);
stored semiamplitude for the body velocities (C41); negative in_axes and mismatched sizes in vmap (C44); p + scalar on Pijk (C47) and monomial order in a docstring (C46);
product matrix degree (C57) and product of Ylm (C56); dropped small rotations and sign of the obliquity without inclination (C54, C70, C86); negative z axis (C69);
degree-0 surfaces ignoring amplitude / occultors (C58, C59, C74); reflex velocity from the first body only (C61); velocities scaling with amplitude (C62);
mirrored longitude in intensity (C73); graticule scaled by the radius (C76); reference solution vectors outside partial occultation (C82); double counting of overlapping occultors (C83, C89, C90);
multiprecision monopole, theta_z and precision-blind cache (C84), concentric/unocculted/rotate=False flux (C85); poles and zero axis of the recursive rotations (C87); precision estimates that raise (C88).

## Wrong programs (seeded/LOG.jsonl)
Model edits are applied in a scratch copy outside /verif; lemmas that no longer prove are admitted there one at a time, and the property theorems that then depend on an admitted lemma
(or fail) are the ones listed as failed; a mutant counts as caught only through a theorem about the claim it breaks. Survivors so far: `k2` (led to C65), `l13`-`l16` (led to C75), `ge2` (led to C16_zero_safe_sqrt_never_divides_by_zero and a traced square root that is undefined when its rule divides by zero), `v6` (led to tightened
C29 theorems), and `ms10`, which is an equivalent program (the edited branch computes the same value).

## Per-property plan, model and theorems

For each property: the proof method; the `Properties/` file; the theorems. Letters after a theorem are what `Print Assumptions` lists:
F = `ClassicalDedekindReals.sig_forall_dec`, N = `ClassicalDedekindReals.sig_not_dec`, E = `FunctionalExtensionality.functional_extensionality_dep`, C = `Classical_Prop.classic`, none = closed under the global context. Limits of each claim are in the notes of MANIFEST.json, repeated here.

- **C01** kepler() lands on the unit circle. *Method*: Model kepler branch by branch over R; algebra on the tan half-angle form. *In* KeplerProps: `C01_kepler_unit_circle` [FNCE].
- **C02** kepler() is 2*pi periodic and has the time-reversal symmetry. *Method*: Rmod model of %; reflect through the `high` branch. *In* KeplerProps: `C02_kepler_periodic` [FNCE], `C02_kepler_time_reversal` [FNCE]. *Limits*: time reversal excludes M = pi (mod 2 pi), where the code evaluates tan at pi/2.
- **C03** kepler() is exact for circular orbits and at periapsis. *Method*: Evaluate starter/refine symbolically at e=0 and M=0. *In* KeplerProps: `C03_kepler_circular` [FNCE], `C03_kepler_periapsis` [FNCE]. *Limits*: circular case excludes M = pi (mod 2 pi), where the code evaluates tan at pi/2.
- **C04** kepler() never leaves the domain of its operations. *Method*: Inequalities on the starter polynomial (q^3+r^2>=0, w>0, d>0). *In* KeplerProps: `C04_kepler_start_defined` [FNCE], `C04_kepler_fold_range` [FNE].
- **C05** kepler() converts eccentric to true anomaly correctly and its correction step fixes exactly the roots of Kepler's equation. *Method*: Half-angle algebra; refine E = E iff residual 0 under the definedness of its divisions. *In* KeplerProps: `C05_true_anomaly_conversion` [FNCE], `C05_refine_fixes_exactly_roots` [FNE], `C05_kepler_equation_unique_solution` [FNCE].
- **C06** The derivative rule of kepler() is the true derivative. *Method*: Coquelicot is_derive of the exact true anomaly composed with arbitrary differentiable M(s), e(s). *In* KeplerProps: `C06_kepler_jvp_is_derivative` [FNCE].
- **C07** No occultation means zero flux change. *Method*: Branch analysis of solution_vector + atan2(0,positive)=0. *In* LimbDarkProps: `C07_no_occultation_no_change` [FNCE].
- **C08** Full occultation removes all the flux. *Method*: Same with atan2(0,negative)=PI; counterexample at b=0,r=1 as a _refuted theorem. *In* LimbDarkProps: `C08_full_occultation` [FNCE], `C08_concentric_equal_radius_refuted` [FNCE]. *Limits*: documented exception b=0,|r|=1 is shown to be a genuine failure of the code (arctan2(0,0)=0).
- **C09** The limb darkened light curve is even in b and r. *Method*: abs first. *In* LimbDarkProps: `C09_even` [FNCE].
- **C10** Green's basis change preserves the intensity profile. *Method*: Induction on length of u; binomial sums vs (1-z)^n. *In* LimbDarkProps: `C10_greens_basis_preserves_profile` [FE].
- **C11** Flux normalisation is the disk-integrated intensity. *Method*: RInt of 2 pi z I(z) over [0,1] by induction on u. *In* LimbDarkProps: `C11_normalisation_is_disk_flux` [FNCE], `C11_disk_flux_closed_form` [FNCE].
- **C12** Uniform disk: the light curve is the exact geometrical overlap. *Method*: Spec = RInt of twice the smaller half chord; angle substitution (RInt_comp). *In* LimbDarkProps: `C12_uniform_disk_overlap` [FNCE].
- **C13** Uniform disk: light curve stays between -1 and 0. *Method*: From C12 by bounding the integral. *In* LimbDarkProps: `C13_uniform_disk_bounds` [FNCE].
- **C14** kite_area is Heron's formula, symmetric in its sides. *Method*: Case analysis of the sorting network. *In* LimbDarkProps: `C14_kite_area_heron` [FNE], `C14_kite_area_base_height` [FNE], `C14_kite_area_symmetric` [FNE].
- **C15** kappas are the angles of the star-planet triangle. *Method*: cos(atan2 y x)=x/hypot; Heron identity. *In* LimbDarkProps: `C15_kappas_law_of_cosines` [FNCE], `C15_kappas_area` [FNCE].
- **C16** zero_safe_sqrt is sqrt with a finite derivative. *Method*: auto_derive / is_derive_sqrt. *In* LimbDarkProps: `C16_zero_safe_sqrt_value` [FNE], `C16_zero_safe_sqrt_derivative` [FNE], `C16_zero_safe_sqrt_jvp_linear` [FNE], `C16_zero_safe_sqrt_finite_at_zero` [FNE], `C16_zero_safe_sqrt_never_divides_by_zero` [FE], `C16_zero_safe_sqrt_bounded_near_zero` [FNE].
- **C17** Transit light curve is flat off transit. *Method*: Model parametrised by the orbit's positions. *In* TransformProps: `C17_transit_light_curve_flat_off_transit` [FNCE], `C17_transit_light_curve_in_front` [FNCE].
- **C18** Emission light curve adds the eclipses of all bodies. *Method*: Fold over body list. *In* TransformProps: `C18_emission_central` [FNCE], `C18_emission_body_visible` [FNCE], `C18_emission_body_hidden` [FNCE], `C18_emission_one_entry_per_body` [FNCE].
- **C19** Exposure integration weights average correctly. *Method*: Sum identities over stencils by induction on half the number of samples. *In* TransformProps: `C19_integrate_constant` [FE], `C19_integrate_linear` [FNCE], `C19_integrate_simpson_cubic` [FNCE], `C19_integrate_zero_exposure` [FE], `C19_single_sample_refuted` [FE]. *Limits*: linear exactness needs num_samples>=2 for orders 1,2; the single-sample case is refuted (C19_single_sample_refuted).
- **C20** Exposure integration samples stay inside the exposure. *Method*: Same stencils; convexity bound. *In* TransformProps: `C20_integrate_is_weighted_average` [FE], `C20_integrate_bounds` [FE].
- **C21** integrate validates its configuration. *Method*: Decision table with a result type. *In* TransformProps: `C21_integrate_validation` [FE].
- **C22** interpolate is periodic and reproduces the grid. *Method*: Model jnp.interp with period= (documented semantics: normalise, sort, wrap, searchsorted). *In* TransformProps: `C22_interpolate_periodic` [FE], `C22_interpolate_range` [FE], `C22_interpolate_reproduces_grid` [FE], `C22_interpolate_linear_between` [FE], `C22_interpolate_outside_window` [FE]. *Limits*: jnp.interp(period=...) is modelled from the JAX documentation; proved: periodic, bounded, reproduces grid, linear in between, flat outside the window.
- **C23** vectorize is element-wise. *Method*: Nested arrays as rose trees of fixed shape. *In* TransformProps: `C23_vectorize_elementwise` [none], `C23_vectorize_quantity_elementwise` [F].
- **C24** TransitOrbit: duration/speed consistency. *Method*: Algebra. *In* TransformProps: `C24_transit_orbit_speed_duration` [FNE], `C24_transit_orbit_construction` [FNE].
- **C25** TransitOrbit: transits happen at time_transit + k*period. *Method*: Rmod lemmas. *In* TransformProps: `C25_transit_orbit_periodic` [FE], `C25_transit_orbit_mid_transit` [FE], `C25_transit_orbit_folded_time` [FE].
- **C26** TransitOrbit: front/behind flag and contact points match the duration. *Method*: Case analysis + C07. *In* TransformProps: `C26_transit_orbit_front_iff_in_transit` [FE], `C26_transit_orbit_light_curve_flat` [FNCE], `C26_transit_orbit_contact` [FNE].
- **C27** TTVOrbit: the linear ephemeris is the least-squares fit. *Method*: 2x2 normal equations by Cramer; sum-of-squares expansion. *In* TTVProps: `C27_least_squares` [FE], `C27_exact_ephemeris_recovered` [FE], `C27_fitted_period_positive` [FE].
- **C28** TTVOrbit: each time is assigned to the nearest observed transit. *Method*: searchsorted model = count of edges < t; sortedness induction. *In* TTVProps: `C28_nearest_transit` [FE], `C28_edges_sorted` [FE].
- **C29** TTVOrbit: planet is at mid transit at each observed transit time. *Method*: C28 at t = tt_i + TransitOrbit at time_transit. *In* TTVProps: `C29_mid_transit_at_observed_times` [FNCE], `C29_mid_transit_at_reconstructed_times` [FNCE], `C29_stored_times_are_the_given_ones` [FNCE], `C29_fitted_ephemeris` [FNCE], `C29_shape_period` [FNCE], `C29_times_from_ttvs` [FNCE], `C29_times_are_the_linear_ephemeris_plus_ttvs` [FNCE], `C29_stored_ttvs_have_zero_mean` [FNCE], `C29_invalid_combinations_raise` [FNCE], `C29_overridden_time_transit_refuted` [FNCE]. *Limits*: time_transit overridden by the user: refuted (C29_overridden_time_transit_refuted).
- **C30** compute_expected_transit_times lists exactly the transits in the window. *Method*: Z-indexed ceil/floor; filter; permutation-free statement by In + Sorted. *In* TTVProps: `C30_expected_transit_times` [FE], `C30_per_planet` [FE].
- **C31** Central accepts exactly the consistent parameter sets. *Method*: option-typed constructor returning result. *In* KeplerianProps: `C31_central_accepts_exactly` [FNCE], `C31_central_consistent` [FNCE], `C31_central_default` [FNCE].
- **C32** Kepler's third law. *Method*: cube-root algebra. *In* KeplerianProps: `C32_third_law` [FNCE], `C32_total_mass` [FE], `C32_keeps_period_or_semimajor` [FNCE], `C32_from_orbital_properties` [FNCE].
- **C33** Body validates its parameters. *Method*: boolean decision table vs independent spec. *In* KeplerianProps: `C33_body_validation` [F], `C33_valid_body_gives_orbit` [FNCE].
- **C34** Reference times are mutually consistent. *Method*: kepler at M=0 exact. *In* KeplerianProps: `C34_time_peri_round_trip` [FNCE], `C34_time_transit_kept` [FNCE], `C34_periastron_distance` [FNCE], `C34_physical_arguments_give_orbits` [FNCE].
- **C35** At time_transit the planet transits with the requested impact parameter. *Method*: Circular: direct. Eccentric: exact solver hypothesis, half-angle algebra. *In* KeplerianProps: `C35_transit` [FNCE], `C35_impact_param_kept` [FNCE], `C35_omega_minus_90_refuted` [FNCE]. *Limits*: geometry of transit for any exact Kepler solver; sin(omega)=-1 given exactly is a genuine failure of the code (C35_omega_minus_90_refuted).
- **C36** Orbital distance bounds. *Method*: C01 + conic equation. *In* KeplerianProps: `C36_distance_bounds` [FNCE], `C36_circular_distance` [FNCE], `C36_parallax_only_rescales` [FNE].
- **C37** Orbits repeat with their period. *Method*: C02. *In* KeplerianProps: `C37_periodic` [FNCE].
- **C38** Barycentric consistency. *Method*: Linearity of the position formula in r0. *In* KeplerianProps: `C38_barycentre` [FNE], `C38_barycentre_velocity` [FNE], `C38_barycentre_velocity_semiamplitude` [FNE].
- **C39** Velocity is the time derivative of position. *Method*: is_derive using implicit differentiation. *In* KeplerianProps: `C39_relative_velocity_is_derivative` [FNCE], `C39_velocity_is_derivative` [FNCE], `C39_central_velocity_is_derivative` [FNCE]. *Limits*: for every exact solver of Kepler's equation (the code's solver returns an approximation whose derivative is defined by the JVP, proved in C05/C06); unconditional for circular orbits.
- **C40** Radial velocity follows the standard formula. *Method*: Algebra. *In* KeplerianProps: `C40_radial_velocity_semiamplitude` [FNCE], `C40_radial_velocity_circular` [FNE], `C40_radial_velocity_from_masses` [FNCE], `C40_radial_velocity_sign` [FNE].
- **C41** A stored radial_velocity_semiamplitude is the star's semiamplitude. *Method*: Refutation by witness; true part proved. *In* KeplerianProps: `C41_stored_semiamplitude_central` [FNE], `C41_stored_semiamplitude_body_refuted` [FNCE]. *Limits*: central and radial velocity as expected; body and relative velocity refuted (C41_stored_semiamplitude_body_refuted).
- **C42** The ascending node only rotates the sky plane. *Method*: Rotation algebra. *In* KeplerianProps: `C42_node_rotates_sky` [FNE], `C42_node_only_changes_node` [FNCE], `C42_light_curve_independent_of_node` [FNCE], `C42_relative_angles_polar` [FNCE].
- **C43** System.add_body appends and never disturbs. *Method*: Lists. *In* KeplerianProps: `C43_add_body_history` [FNCE], `C43_shape` [FNCE], `C43_same_as_constructor` [FNCE].
- **C44** body_vmap equals applying the function body by body. *Method*: Two-path model of ObjectStack.vmap with indexable arrays. *In* StackProps: `C44_vmap_is_pointwise` [F], `C44_success_means_every_call` [F], `C44_paths_agree` [F], `C44_constructor` [F], `C44_constructor_heterogeneous` [F], `C44_empty_stack` [F], `C44_negative_in_axes_refuted` [F], `C44_negative_in_axes_loop` [none], `C44_size_mismatch_refuted` [F]. *Limits*: non-negative in_axes of matching size; negative in_axes and size mismatch refuted for the loop path (C44_negative_in_axes_refuted, C44_size_mismatch_refuted).
- **C45** quantity_input normalises units. *Method*: Units as (dimension, scale) pairs. *In* UnitsProps: `C45_arguments_normalised` [FE], `C45_conversion_spec` [FE], `C45_strict_spec` [FE], `C45_leaf_cases` [FE], `C45_round_trip` [FE], `C45_idempotent` [FE], `C45_pass_through` [FE], `C45_none_without_none_default` [FE], `C45_decoration_check` [FE], `C45_field` [FE]. *Limits*: multiplicative units; an explicit None for a parameter whose default is not None raises ValueError (C45_none_without_none_default).
- **C46** Polynomial basis indexings are mutually inverse. *Method*: Z arithmetic with Z.sqrt. *In* PolyProps: `C46_n_lm_bijection` [none], `C46_lm_ijk_bijection` [none], `C46_n_ijk_bijection` [none], `C46_documented_monomial` [FE], `C46_docstring_order_refuted` [none], `C46_dense_round_trip` [FE], `C46_dense_round_trip_degree` [FE], `C46_empty_dense` [none], `C46_todense_same_function` [FE]. *Limits*: docstring order refuted (C46_docstring_order_refuted); everything else proved.
- **C47** Pijk arithmetic is polynomial arithmetic on the unit sphere. *Method*: Assoc-list dict model; evaluation homomorphism. *In* PolyProps: `C47_add` [FE], `C47_mul` [FE], `C47_scalar_multiplication` [FE], `C47_coefficients_unique` [FNE], `C47_add_scalar_actual` [FE], `C47_add_scalar_refuted` [FE]. *Limits*: p + scalar refuted as addition of a constant (C47_add_scalar_refuted), with its actual meaning proved.
- **C48** Limb darkening polynomial is represented exactly on the sphere. *Method*: Triple binomial expansion. *In* BasisProps: `C48_limb_darkening_polynomial` [FE], `C48_quadratic_law` [FE].
- **C49** poly_basis evaluates the declared monomials. *Method*: Loop model with arrays of options; invariant. *In* BasisProps: `C49_poly_basis` [FE], `C49_dot_product` [FE].
- **C50** Spherical harmonic change of basis is the spherical harmonic. *Method*: Legendre via finite sums; rising factorials. *In* HarmonicProps: `C50_Ylm_is_harmonic` [FNCE], `C50_Ylm_degree` [FNE], `C50_A1_action` [FNCE], `C50_A1_invertible` [FNCE].
- **C51** Green's basis polynomials are curls of the integrand vector fields. *Method*: Derivation by is_derive in x,y; triangularity. *In* BasisProps, HarmonicProps: `C51_gtilde_is_curl` [FNCE], `C51_gtilde_degree` [FE], `C51_A2_inv_action` [FE], `C51_A2_inv_invertible` [FCE], `C51_every_map_is_a_curl` [FNCE], `C51_full_change_of_basis` [FNCE], `C51_full_change_of_basis_unique` [FNCE]. *Limits*: the l=1,m=0 field has its removable singularity at the origin, which is excluded there.
- **C52** rT are the disk integrals of the polynomial basis. *Method*: Beta-type integrals by recursion. *In* SolutionProps: `C52_rT_is_disk_integral` [FNCE], `C52_flux` [FNCE], `C52_length` [FNE]. *Limits*: for every degree.
- **C53** z-rotation is a rotation. *Method*: Trig sums; Chebyshev induction. *In* RotationProps: `C53_rz_formula` [FNE], `C53_rz_rotates_the_map` [FNE], `C53_rz_identity` [FNE], `C53_rz_additive` [FNE], `C53_rz_periodic` [FNE], `C53_rz_power` [FNE], `C53_rz_bad_length` [FNE], `C53_dispatch` [FNE]. *Limits*: dot_rz for vectors of every degree, with its geometric meaning.
- **C54** Orientation axis-angle conversions are rotations. *Method*: Trig algebra. *In* RotationProps: `C54_sky_projection` [FNCE], `C54_missing_inclination_flips_obliquity_refuted` [FNCE], `C54_full_rotation` [FNCE], `C54_small_angles_refuted` [FNCE]. *Limits*: small rotations dropped by the allclose default rtol=1e-5 (C54_small_angles_refuted); obliquity sign flips when the inclination is None (C54_missing_inclination_flips_obliquity_refuted).
- **C55** Ylm dense/sparse round trip and normalisation. *Method*: Z.sqrt indexing; dict model. *In* YlmProps: `C55_roundtrip` [FE], `C55_empty` [none], `C55_todense` [FNE], `C55_normalize` [FNE], `C55_normalize_missing` [FE], `C55_normalize_zero_refuted` [FE], `C55_getitem_beyond_degree_refuted` [FE], `C55_invalid_order_refuted` [FE], `C55_scalar` [FNE]. *Limits*: Coefficients are exact reals; error cases are those of Python floats.
- **C56** Product of Ylm expansions is the product of the functions. *Method*: Refutation by witness. *In* YlmProps: `C56_product_with_constant` [FNE], `C56_product_refuted` [FNCE], `C56_commutative_refuted` [FNE]. *Limits*: The stated product property is refuted; what the code computes for a constant factor is proved for every map.
- **C57** Polynomial product matrix multiplies polynomials. *Method*: Refutation by witness. *In* PolyProps: `C57_product_matrix_actual` [FE], `C57_product_matrix_square` [FE], `C57_product_matrix_last_zero` [FE], `C57_product_matrix_refuted` [FE]. *Limits*: deg_p = floor(sqrt(len p)) is off by one; actual meaning proved for all inputs, product claim refuted in general and proved when the last coefficient is 0.
- **C58** surface_light_curve scales with the surface amplitude. *Method*: Refutation by witness + proved part. *In* StarryProps: `C58_amplitude` [FNCE], `C58_degree0_refuted` [FNCE]. *Limits*: degree 0 with an occultor ignores the amplitude (C58_degree0_refuted).
- **C59** System observables combine bodies correctly. *Method*: Fold over bodies. *In* StarryProps: `C59_structure` [FNE], `C59_no_bodies` [FNE], `C59_unocculted` [FNCE], `C59_degree0_refuted` [FNCE], `C59_never_both` [FNCE]. *Limits*: for any observable and solver; degree-0 stars with several bodies give n-(n-1)f0 (C59_degree0_refuted).
- **C60** Surface stays aligned with its body. *Method*: Lists. *In* StarryProps: `C60_one_by_one` [FNCE], `C60_aligned` [FNCE]. *Limits*: all histories of add_body.
- **C61** Reflex radial velocity of a multi-planet system. *Method*: Refutation by witness. *In* StarryProps: `C61_first_body` [FNE], `C61_reflex_refuted` [FNCE], `C61_no_bodies` [FNE], `C61_scalar_time` [FNE]. *Limits*: the natural claim (every body counts) is refuted (C61_reflex_refuted).
- **C62** Rigid and differential rotation velocity field. *Method*: Polynomial identity. *In* SurfaceProps: `C62_velocity_field` [FNCE], `C62_differential_rotation` [FNCE], `C62_render_rv` [FNCE], `C62_radial_velocity` [FNCE], `C62_amplitude` [FNCE], `C62_amplitude_refuted` [FNCE], `C62_no_inclination_refuted` [FNCE], `C62_needs_period` [FNCE]. *Limits*: shear None, as every caller passes it (Surface.vdeg is None otherwise); velocities scale with the amplitude (C62_amplitude_refuted); inclination None is inconsistent (C62_no_inclination_refuted).
- **C63** Wigner 3j selection and normalisation. *Method*: Array model of wigner3j.calculate (forward/backward recursions, matching, normalisation, signs). Spec: Racah's formula as a finite sum. Existence of a solution of the three-term recurrence by Racah's formula (Zeilberger-style certificates), uniqueness up to a factor, then normalisation and sign fix the value. *In* Wigner3jProps: `C63_selection_rules` [FNE], `C63_normalised` [FNE], `C63_definition` [FNE], `C63_solves_recurrence` [FNE], `C63_family` [FNE], `C63_symbol` [FNE], `C63_clebsch_gordan` [FNE], `C63_invalid_m` [FNE], `C63_symbol_of_family` [FNE], `C63_cyclic` [FNE]. *Limits*: for all integer arguments, unconditionally: value = Racah's formula (existence and uniqueness of the solution of the recurrence proved), cyclic symmetry, orthonormality; floats are exact reals (no overflow or cancellation).
- **C64** Orthographic grid lies on the sphere. *Method*: Index arithmetic of the grids and arrays; each pixel's position and value from the surface (C73). *In* UtilsProps: `C64_grid` [FNCE], `C64_image` [FNCE], `C64_image_rv` [FNCE], `C64_arrays` [F]. *Limits*: Grid, image and coefficient arrays, for every resolution > 1 and every surface. rv=True without shear.
- **C65** Kepler's equation is solved to rounding accuracy by the fixed number of steps. *Method*: Newton-type step analysis: bounds on the starter's error by rational polynomial bounds (interval subdivision of polynomials, checked by vm_compute), contraction of the fifth-order correction step, then propagation to the true anomaly, positions and velocities. *In* KeplerAccuracyProps: `C65_starter` [FNCE], `C65_eccentric_anomaly` [FNCE], `C65_true_anomaly` [FNCE], `C65_relative_position` [FNCE], `C65_radial_velocity` [FNCE]. *Limits*: Error bounds of the algorithm in exact real arithmetic (floating-point rounding is not modelled), proved with rational polynomial bounds checked by vm_compute. The true-anomaly bound excludes a window of 8e-15 around apoapsis, where the half-angle tangent may meet its pole; the eccentric-anomaly bound has no exclusion.
- **C66** TTVOrbit reads transit times and ttvs as numbers of days. *Method*: Numbers-only theorem for all units + concrete counterexample. *In* TTVProps: `C66_only_the_numbers_matter` [FNCE], `C66_time_units_refuted` [FNCE]. *Limits*: the code does not convert units of transit_times/ttvs: the claim is refuted by a concrete orbit.
- **C67** TTVOrbit evaluated on an array of times is the pointwise evaluation. *Method*: Array model of searchsorted and indexing with broadcasting; one planet by induction on the times, two planets refuted. *In* TTVProps: `C67_array_of_times_single_planet` [FE], `C67_array_of_times_refuted` [FNCE]. *Limits*: holds for one planet; refuted for two planets (t0 broadcast along the time axis / shape error).
- **C68** Bodies without a mass. *Method*: The formulas with mass None traced through the constructors. *In* KeplerianProps: `C68_massless_central_position` [FNE], `C68_massless_radial_velocity` [FNCE], `C68_massless_radial_velocity_circular` [FNE].
- **C69** Rotating spherical-harmonic coefficients about any axis rotates the map. *Method*: Full model of the s2fft recursion. The Wigner blocks are shown to be the coefficients of the rotated harmonics by induction on the degree through the recursion's ladder relations, using uniqueness of harmonic coefficients. *In* RotationMapProps: `C69_rotates_the_map` [FNCE], `C69_coefficients_determined_by_map` [FNCE], `C69_bad_length` [FNE], `C69_zero_angle` [FNCE], `C69_compose` [FNCE], `C69_z_axis_paths_agree` [FNCE], `C69_degree_power` [FNCE], `C69_negative_z_axis_refuted` [FNCE]. *Limits*: vectors of every degree and every axis; the only assumption on jax's Rotation.from_rotvec().as_euler('zyz') is its documented meaning (zyz_euler), met by an explicit function (C69_sat); negative z axis refuted.
- **C70** left_project and right_project change frame and are mutually inverse. *Method*: Composition of the projections as rotations of the sphere; C69. *In* RotationMapProps: `C70_left_project` [FNCE], `C70_right_left` [FNCE], `C70_missing_inclination` [FNCE], `C70_roundtrip_without_inclination` [FNCE], `C70_roundtrip_without_inclination_refuted` [FNCE], `C70_bad_length` [FNCE]. *Limits*: for all angles present or None; obl without inc refuted (C70_roundtrip_without_inclination_refuted).
- **C71** Ylm.from_limb_darkening is the normalised limb-darkening profile. *Method*: Change of basis by A1 and its inverse; uniqueness of polynomial coefficients on the sphere. *In* YlmProps: `C71_from_limb_darkening` [FNCE], `C71_unit_flux` [FNCE]. *Limits*: np.linalg.inv(A1) is a parameter assumed to be a right inverse (one exists: C71_sat).
- **C72** ylm_spot is a zonal spot at (lat, lon). *Method*: Normal equations of the least squares problem; Legendre expansion; rotation by C69. *In* SurfaceProps: `C72_spot` [FNCE], `C72_profile` [FNCE]. *Limits*: jnp.linalg.solve is a parameter characterised by the normal equations.
- **C73** Surface shows its map with the stated geometry. *Method*: Pointwise value of render/intensity as polynomial in the rotated frame. *In* SurfaceProps: `C73_render` [FNCE], `C73_normalize_needs_00` [FE], `C73_default` [FNCE], `C73_pole` [FNE], `C73_intensity_latlon` [FNCE], `C73_intensity_latlon_refuted` [FNCE], `C73_rotational_phase` [FNE]. *Limits*: intensity(lat, lon) is mirrored (C73_intensity_latlon_refuted).
- **C74** The flux of an unocculted surface. *Method*: C52 (disk integrals), rotation to the frame of the sky, limb-darkening product by C47/C57. *In* StarryProps: `C74_unocculted` [FNCE], `C74_uniform` [FNCE], `C74_uniform_occultor_refuted` [FNCE], `C74_uniform_transit` [FNCE]. *Limits*: degree-0 maps with an occultor refuted (C74_uniform_occultor_refuted).
- **C75** The limb-darkened light curve is the visible flux. *Method*: Green's theorem on the occulted region, reduced to the two arcs; the three kinds of basis terms integrated explicitly except the odd one, whose difference with the quadrature sum is the error term. *In* OccultProps: `C75_visible_flux_outside_contact` [FNCE], `C75_visible_flux_general` [FNCE], `C75_visible_flux_up_to_quadrature` [FNCE], `C75_exact_when_quadrature_exact` [FNCE], `C75_error_bound` [FNCE], `C75_concentric_exact` [FNCE], `C75_visible_flux_bounds` [FNCE]. *Limits*: exact-real; the concentric equal-radius point (0,1) is excluded (it is wrong: C08_concentric_equal_radius_refuted); the error is stated in terms of the quadrature error, whose convergence is C81.
- **C76** The graticule of show_surface follows the map. *Method*: Parametrised curves of the graticule, compared with render's frame. *In* UtilsProps: `C76_graticule` [FNCE], `C76_aligned` [FNE], `C76_radius` [FNE], `C76_body_radius_refuted` [FNCE]. *Limits*: The lines and their alignment with the image proved for every orientation; C76_body_radius_refuted shows the image/graticule mismatch for a body whose radius is not 1. matplotlib, colours and the contour circle are not modelled.
- **C77** The starry solution vector is the visible flux of the Green's basis functions. *Method*: Green's theorem over the visible region as above, for every term of the Green basis; P and Q integrals split into the arcs. *In* SkyProps: `C77_partly_hidden` [FNCE], `C77_clear` [FNCE], `C77_all_hidden` [FNCE], `C77_same_size_refuted` [FNCE], `C77_length` [FNCE]. *Limits*: exact-real; the guards (numerical zero offsets, nodes at which the integrand is clamped by eps) are excluded by clear_of_guards; the error is stated in terms of the quadrature error (convergence: C81); (0,1) refuted (C77_same_size_refuted).
- **C78** The light curve of an occulted surface is its visible flux. *Method*: C77 + A2 change of basis + C69/C70 rotation of the map into the occultor's frame + disk rotation invariance. *In* SkyProps: `C78_partly_hidden` [FNCE], `C78_error_bound` [FNCE], `C78_all_hidden` [FNCE], `C78_same_size_refuted` [FNCE], `C78_seen_is_rendered` [FNE]. *Limits*: np.linalg.inv(A2_inv) is a parameter assumed to be a right inverse (one exists: C78_sat); as_euler only through zyz_euler; quadrature error explicit; (0,1) refuted (C78_same_size_refuted).
- **C79** The radial velocity of an occulted surface. *Method*: C78 for the maps I*v and I; quotient. *In* SkyProps: `C79_partly_hidden` [FNCE]. *Limits*: as C78; shear None.
- **C80** higher_precision=True only changes rounding. *Method*: mp matrices compared entry by entry with the double-precision formulas; caches as state machines over histories. *In* MpProps: `C80_A1` [FNE], `C80_A2_inv` [FE], `C80_finite` [FNE], `C80_A2_is_inverse` [FCE], `C80_A2_total` [FCE], `C80_closed_subsets` [FCE], `C80_light_curve` [FNCE], `C80_radial_velocity` [FNCE], `C80_cache` [none]. *Limits*: mpmath numbers are reals and mp.inf is a separate value; mp.lu_solve is specified by the relation lu_solve_to (least-squares solution of the normal equations), the set order is arbitrary; jnp.linalg.inv / scipy inverse as right_inverse.
- **C81** Light curves converge as the quadrature order grows. *Method*: Gauss-Legendre rules from orthogonality of Legendre polynomials (existence proved); Weierstrass approximation (Bernstein polynomials) gives convergence of the rules on continuous functions; continuity of the integrands; limits through C75/C78/C79. *In* OrderProps, RvOrderProps: `C81_gauss_legendre_exists` [FNCE], `C81_limb_dark` [FNCE], `C81_polynomial_entries` [FNCE], `C81_polynomial_entries_20` [FNCE], `C81_solution_vector` [FNCE], `C81_light_curve` [FNCE], `C81_radial_velocity` [FNCE]. *Limits*: exact-real; the machine epsilon, only a guard, must be small enough for the nodes of the order; roots_legendre is specified by its documented properties (roots of P_n, exact up to degree 2n-1), the existence of such rules is proved; for radial velocities the flux left must exceed the bound on the 20-node rule.
- **C82** The multiprecision reference solution vectors are exact. *Method*: The mp integrands; exact integrator; Green's theorem as in C77. *In* MpSolutionProps: `C82_solution_vector` [FNCE], `C82_division_by_zero` [FNCE], `C82_outside_refuted` [FNCE], `C82_limb_dark` [FNCE], `C82_limb_dark_division_by_zero` [FNCE], `C82_cache_history` [FNCE]. *Limits*: mp.quad is taken to be an exact integrator (exact_quad; the integral itself is one: C82_sat); mp numbers are reals; where mpmath would return complex powers the model keeps the real part, as sT does; b = 0, r = 0 and the non-partial case are stated as they are (C82_division_by_zero, C82_outside_refuted).
- **C83** The light curve of a system is what its bodies leave visible of each other. *Method*: Inclusion/exclusion of open disks under disk integrals; fold over bodies. *In* ShadowProps: `C83_disjoint` [FNCE], `C83_counted` [FNCE], `C83_overlap_refuted` [FNCE], `C83_limb_darkened` [FNCE], `C83_body` [FNCE], `C83_limb_darkened_body` [FNCE]. *Limits*: exact-real; quadrature errors explicit per body (0 unless partly hiding); guards excluded by regular/regular_ld; degree-0 surfaces need flux 1 (otherwise C59_degree0_refuted); overlapping bodies: the general formula C83_counted and the counterexample C83_overlap_refuted.
- **C84** The multiprecision rotations are the rotations of the map. *Method*: Axis-angle to U matrices, complex unitary adjoints, tolerance `tol` handled as explicit error; caches keyed by degree only, as state machine. *In* MpRotationProps: `C84_blocks` [FNCE], `C84_blocks_z` [FNCE], `C84_dot_error` [FNCE], `C84_dot_approaches` [FNCE], `C84_zero_angle` [FNCE], `C84_left_project` [FNCE], `C84_monopole` [FNCE], `C84_monopole_refuted` [FNCE], `C84_theta_z_refuted` [FNCE], `C84_dot_rz` [FNE], `C84_dot_rz_short` [FNE], `C84_cache` [FNCE], `C84_cache_precision_refuted` [FNCE]. *Limits*: exact reals; U ** -1 is any right inverse (inverse_of_U; the adjoint is one: C84_sat); excluded: rotations that keep or reverse the pole about a non-vertical axis and full turns about z (the code divides by a norm that is 0 in exact arithmetic); the violations are C84_monopole_refuted, C84_theta_z_refuted, C84_cache_precision_refuted.
- **C85** The multiprecision flux is the flux of the visible part. *Method*: C80 + C82 + C84 composed. *In* MpFluxProps, PrecisionProps: `C85_limb_dark` [FNCE], `C85_map` [FNCE], `C85_unocculted` [FNCE], `C85_point` [FNE], `C85_point_close` [FNCE], `C85_total` [FNCE], `C85_lengths` [FNCE], `C85_concentric_refuted` [FNCE], `C85_unocculted_limb_dark_refuted` [FNCE], `C85_unocculted_uniform_refuted` [FNCE], `C85_rotate_false_refuted` [FNCE], `C85_nudged_flux` [FNCE]. *Limits*: exact reals; mp.quad is an exact integrator, U ** -1 any right inverse; the caches are taken to return what their functions return at the working precision of the call (C80_cache, C82_cache_history, C84_cache); obl and inc such that the rotations are expressible (obl = 0 or cos obl <> 1; inc = pi/2 or cos inc <> 0); what fails is in the C85_..._refuted theorems.
- **C86** The one-step projection agrees with left_project. *Method*: Wigner matrices of the compound Euler angles; C69. *In* FastProjectProps: `C86_agrees_with_left_project` [FNCE], `C86_rotates_the_map` [FNCE], `C86_small_rotation_dropped` [FNCE], `C86_small_angles_refuted` [FNCE], `C86_missing_inclination_refuted` [FNCE], `C86_length` [FNCE], `C86_precomputed_matrices` [FNE]. *Limits*: exact reals; as_euler only through zyz_euler (as in C69); the violations (small rotations dropped, missing inclination) are C86_small_angles_refuted and C86_missing_inclination_refuted.
- **C87** The recursive rotation matrices are those of the rotation. *Method*: Recursive dlmn/Rlm construction related to C69 through matrix entries by induction on the degree. *In* DlmnProps: `C87_rotates_the_map` [FNCE], `C87_agrees_with_s2fft` [FNCE], `C87_zero_axis_refuted` [FNE], `C87_near_pole_refuted` [FNCE]. *Limits*: exact reals; as_euler only through zyz_euler; excluded: heights of the image of the pole in the window of 10 eps around +-1 (C87_near_pole_refuted) and the zero axis (C87_zero_axis_refuted).
- **C88** The precision estimates report the true error. *Method*: C81 and C85 composed: the difference of the two fluxes tends to the error of the order. *In* PrecisionProps: `C88_default` [FE], `C88_limb_dark` [FNCE], `C88_limb_dark_order` [FNCE], `C88_map` [FNCE], `C88_map_order` [FNCE], `C88_uniform` [FNCE], `C88_clear_refuted` [FNCE], `C88_centred_refuted` [FNCE]. *Limits*: exact reals; hypotheses of C81 and C85 (exact mp.quad, right inverses, Gauss-Legendre rules, tiny eps); C88_clear_refuted and C88_centred_refuted give the impact parameters for which the reference raises.
- **C89** Transit and eclipse light curves are the visible flux of the orbit's bodies. *Method*: C75/C81 for each body with the orbit's position; fold over bodies; disk inclusion. *In* TransitFluxProps: `C89_transit` [FNCE], `C89_transit_bounds` [FNCE], `C89_emission_star` [FNCE], `C89_emission_counted` [FNCE], `C89_emission_overlap_refuted` [FNCE], `C89_emission_body` [FNCE], `C89_keplerian_mid_transit` [FNCE], `C89_transit_orbit_mid_transit` [FNCE], `C89_transit_orbit_symmetric` [FNCE]. *Limits*: exact reals; Gauss-Legendre rules and tiny eps as in C81; Keplerian statement for an exact solver of Kepler's equation (C65 bounds the code's); C89_emission_overlap_refuted is the double-counting counterexample.
- **C90** Radial velocities of systems: the Rossiter-McLaughlin effect. *Method*: C79/C81 for each body; fold over bodies. *In* SystemRvProps: `C90_star` [FNCE], `C90_transit` [FNCE], `C90_two_transits_refuted` [FNCE], `C90_body` [FNCE]. *Limits*: exact-real; all of the occultors leave a part of the disk visible (a star hidden completely gives 0/0); that the added changes differ from the joint one is proved for two disjoint planets (refuted).
- **C91** The methods of a System and its light curve are those of its bodies. *Method*: Encoding of bodies as pytrees (decode of encode is the identity, leaves are scalars), then an instance of the ObjectStack theorem C44; unit tags decide when structures agree. *In* SystemMethodsProps: `C91_relative_position` [FNE], `C91_position` [FNE], `C91_central_position` [FNE], `C91_velocity` [FNE], `C91_central_velocity` [FNE], `C91_relative_velocity` [FNE], `C91_radial_velocity` [FNE], `C91_mixed_parallax_raises` [FNE], `C91_mixed_velocity_raises` [FNE], `C91_no_bodies` [FNE], `C91_missing_mass_raises` [FNE], `C91_radii` [F], `C91_light_curve` [FNCE], `C91_light_curve_raises` [FNCE]. *Limits*: exact reals; times plain (days) or Quantities in days; central_position needs the masses of the bodies (TypeError otherwise, C68); jax.vmap and pytrees from their documentation; Quantity is a pytree node with static unit.
- **C92** Gradients of the limb-darkened light curve are finite and correct. *Method*: Traced numbers (value, tangent) with the rule of each primitive; one lemma per primitive that finiteness, resp. being the derivative, is preserved; conditions locally constant off the thresholds; sorting of the sides does not change the tangent (symmetry of the product). *In* GradProps: `C92_value_and_finite_tangent` [FNCE], `C92_gradients_finite` [FNCE], `C92_gradients_finite_refuted` [FNCE], `C92_tangent_is_derivative` [FNCE], `C92_gradients` [FNCE], `C92_zero_outside_transit` [FNCE]. *Limits*: exact reals; the derivative rules of the JAX primitives are written from JAX's documentation (Model/AutoDiff.v: ties of maximum/minimum share the tangent, abs has derivative 0 at 0, a branch with an infinite partial derivative poisons jnp.where as in reverse mode); at the thresholds of the guards and for nearly touching contact points (16 area^2 < 10 eps) only finiteness is claimed; the refuted theorem states the two exceptional points.
- **C93** Gradients of transit light curves. *Method*: Model/TransitGrad.v evaluates TransitOrbit and light_curves/limb_dark.py on traced numbers; finiteness by the closure lemmas of C92 and the decomposition of jnp.mod, derivatives by the chain rule with a locally constant window and floor; the singular points (middle of a transit with impact parameter 0; a duration with a body that misses the star) as refuted theorems *In* TransitGradProps: `C93_gradients_finite` [FNCE], `C93_gradients_finite_refuted` [FNCE], `C93_constructor_finite` [FNE], `C93_constructor_finite_refuted` [FNCE], `C93_tangent_is_derivative` [FNCE], `C93_constructor_derivative` [FNCE], `C93_time_gradient` [FNCE], `C93_zero_outside_transit` [FNCE]. *Limits*: exact reals; derivative rules of the JAX primitives as in C92 plus jnp.sqrt (no derivative at 0), x**2 and jnp.mod; the orbit's parameters that enter a singular primitive are supposed differentiated in the refuted theorems (impact parameter and radius ratio for the constructor); the two refuted theorems state the exceptions.
- **C94** Gradients of Keplerian orbits. *Method*: Model/KeplerGrad.v evaluates the OrbitalBody constructor, positions, velocities and light curves on traced numbers with the solver's custom rule; finiteness by the closure lemmas of C92, derivatives by the chain rule, the time tangent by comparison with the closed-form velocity (C34); exceptions as refuted theorems *In* KeplerGradProps: `C94_gradients_finite` [FNCE], `C94_constructor_finite` [FNCE], `C94_constructor_finite_refuted` [FNCE], `C94_constructor_finite_polar_refuted` [FNCE], `C94_tangent_is_derivative` [FNCE], `C94_constructor_derivative` [FNCE], `C94_gradient_in_arguments` [FNCE], `C94_time_gradient_is_velocity` [FNCE], `C94_light_curve_finite` [FNCE], `C94_light_curve_finite_refuted` [FNCE], `C94_light_curve_derivative` [FNCE]. *Limits*: exact reals; the solver is any exact one, with the custom derivative rule of core/kepler.py; scalar bodies; derivative rules of the JAX primitives as in C92, C93 plus jnp.cbrt; a value that is not a number in one tangent is not a number whatever is differentiated (reverse mode); derivatives in the eccentricity are two-sided, so at eccentricity 0 they are claimed along paths that stay at eccentricities >= 0; the refuted theorems state the exceptions.
- **C95** Gradients of starry solution vectors and occultation design vectors. *Method*: Model/StarryGrad.v evaluates solution.py (kappas, q_integral, p_integral), the occultor geometry and the design vector on traced numbers; finiteness by the closure lemmas of C92, derivatives by the chain rule with every guard locally constant; zero tangents outside because both angles have zero tangents; the aligned configuration by propagation of the undefined distance *In* StarryGradProps: `C95_solution_finite` [FNCE], `C95_solution_finite_refuted` [FNCE], `C95_solution_derivative` [FNCE], `C95_solution_zero_outside` [FNCE], `C95_design_finite` [FNCE], `C95_design_finite_refuted` [FNCE], `C95_design_zero_outside` [FNCE], `C95_design_derivative` [FNCE], `C95_uniform_finite` [FNCE], `C95_uniform_finite_refuted` [FNCE], `C95_uniform_derivative` [FNCE]. *Limits*: exact reals; scalar distance, radius and position; derivative rules of the JAX primitives as in C92-C94; A2 arbitrary; quadrature nodes arbitrary; at thresholds of the guards (10 eps) and within them only finiteness is claimed; the refuted theorems state the two singular points and x = y = 0.
- **C96** Gradients of light curves of spherical-harmonic maps. *Method*: Model/StarryGrad.v evaluates dot_rz, left_project, the Pijk products and the flux on traced numbers; a relational lifting of dictionaries of coefficients (same keys, tracking values) goes through every step; finiteness by straight lines through the point; the unhidden case because both gradients are derivatives of the same function, by invariance of the disk integral under rotations *In* StarryCurveGradProps: `C96_bare_finite` [FNCE], `C96_bare_derivative` [FNCE], `C96_occulted_finite` [FNCE], `C96_occulted_finite_refuted` [FNCE], `C96_unhidden` [FNCE], `C96_occulted_derivative` [FNCE]. *Limits*: exact reals; inclination and obliquity are not differentiated, the phase is; position angle, phase, coefficients, limb darkening, amplitude, position and radius are; A2 and the quadrature nodes arbitrary; C96_unhidden uses the specification of the Euler angles (C29); the refuted theorem is x = y = 0.
- **C97** Gradients of radial velocities of spherical-harmonic maps. *Method*: Model/StarryRvGrad.v evaluates surf_veq, rv_map_expansion and the quotient of surface_radial_velocity on traced numbers; the same relational lifting as C96 through both quotients; straight lines through the point for finiteness; the unhidden case by the invariance of both disk integrals under rotations; the aligned case by propagation of the undefined position angle and distance *In* StarryRvGradProps: `C97_bare_finite` [FNCE], `C97_bare_derivative` [FNCE], `C97_dividing_flux` [FNCE], `C97_occulted_finite` [FNCE], `C97_occulted_finite_refuted` [FNCE], `C97_unhidden` [FNCE], `C97_occulted_derivative` [FNCE]. *Limits*: exact reals; rigid rotation (shear None); inclination and obliquity are not differentiated; divides_by_nonzero says that the flux in the denominator is not 0; C97_dividing_flux and C97_unhidden use the specification of the Euler angles (C29); the refuted theorem is x = y = 0.
- **C98** Gradients of light curves of systems of surfaces. *Method*: Model/SystemGrad.v evaluates system_observable on traced numbers; the positions by C94, the fluxes by C95 (degree 0) and C96; induction over the list of bodies for finiteness and for a list of differentiable entries; the aligned case by propagation *In* SystemGradProps: `C98_finite` [FNCE], `C98_derivative` [FNCE], `C98_times_finite` [FNCE], `C98_times_derivative` [FNCE], `C98_finite_iff` [FNCE], `C98_unhidden` [FNCE], `C98_finite_refuted` [FNCE]. *Limits*: exact reals; inclinations and obliquities of the surfaces are not differentiated; the number of bodies and which of them have surfaces are fixed along a path; the refuted theorem is for a system of one body without surface; it uses the specification of the Euler angles (C29).
- **C99** Gradients of radial velocities of systems of surfaces. *Method*: Model/SystemGrad.v also evaluates doppler.radial_velocity on traced numbers; the induction of C98 over the list of bodies is generic in the observable and used with the velocities of C97, the reflex velocity by C94; a table with one row per time; which entries have gradients by a generic induction that keeps track of the bodies in line *In* SystemRvGradProps: `C99_finite` [FNCE], `C99_derivative` [FNCE], `C99_finite_iff` [FNCE], `C99_unhidden` [FNCE], `C99_finite_refuted` [FNCE]. *Limits*: exact reals; rigid rotation (no shear); inclinations and obliquities of the surfaces are not differentiated; the number of bodies and which of them have surfaces are fixed along a path; where something is hidden the flux in the denominator is a hypothesis on the quadrature, when nothing is hidden it is the visible flux (C97); the refuted theorem is for a system of one body without surface at one time.
