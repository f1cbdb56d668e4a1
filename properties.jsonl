{"id": "C01", "title": "kepler() lands on the unit circle", "statement": "For every mean anomaly M and eccentricity 0<=e<1 the pair (sinf, cosf) returned by core.kepler.kepler satisfies sinf^2+cosf^2=1, whatever the accuracy of the internal eccentric anomaly.", "quantifier": "all real M, all 0<=e<1", "why_tests_cant": "The claim ranges over a continuum of real inputs; sampled grids cannot exclude an isolated bad point or a wrong branch boundary.", "anchors": ["src/jaxoplanet/core/kepler.py:_kepler"]}
{"id": "C02", "title": "kepler() is 2*pi periodic and has the time-reversal symmetry", "statement": "kepler(M+2*pi*k, e)=kepler(M, e) for every integer k; kepler(-M,e)=(-sinf, cosf) where kepler(M,e)=(sinf,cosf).", "quantifier": "all real M (away from the apoapsis M = pi mod 2*pi, where a real tangent has a pole), all integers k, all 0<=e<1", "why_tests_cant": "The claim ranges over a continuum of real inputs; sampled grids cannot exclude an isolated bad point or a wrong branch boundary.", "anchors": ["src/jaxoplanet/core/kepler.py:_kepler"]}
{"id": "C03", "title": "kepler() is exact for circular orbits and at periapsis", "statement": "kepler(M,0)=(sin M, cos M) for every M; kepler(2*pi*k,e)=(0,1) for every integer k and every 0<=e<1.", "quantifier": "all M with e=0; all integers k and 0<=e<1", "why_tests_cant": "The claim ranges over a continuum of real inputs; sampled grids cannot exclude an isolated bad point or a wrong branch boundary.", "anchors": ["src/jaxoplanet/core/kepler.py:_kepler", "src/jaxoplanet/core/kepler.py:starter", "src/jaxoplanet/core/kepler.py:refine"]}
{"id": "C04", "title": "kepler() never leaves the domain of its operations", "statement": "For 0<=M<=pi and 0<=e<1 the starting-value computation never divides by zero, never takes the square root of a negative number, and returns a finite non-negative value.", "quantifier": "all 0<=M<=pi, 0<=e<1", "why_tests_cant": "The claim ranges over a continuum of real inputs; sampled grids cannot exclude an isolated bad point or a wrong branch boundary.", "anchors": ["src/jaxoplanet/core/kepler.py:starter"]}
{"id": "C05", "title": "kepler() converts eccentric to true anomaly correctly and its correction step fixes exactly the roots of Kepler's equation", "statement": "When the eccentric anomaly E produced internally satisfies E-e sin E=M, kepler returns the true anomaly of Kepler's equation, cosf=(cosE-e)/(1-e cosE), sinf=sqrt(1-e^2) sinE/(1-e cosE); a root of Kepler's equation is left unchanged by the high-order correction step and nothing else is.", "quantifier": "all E, 0<=e<1", "why_tests_cant": "The claim ranges over a continuum of real inputs; sampled grids cannot exclude an isolated bad point or a wrong branch boundary.", "anchors": ["src/jaxoplanet/core/kepler.py:_kepler", "src/jaxoplanet/core/kepler.py:refine"]}
{"id": "C06", "title": "The derivative rule of kepler() is the true derivative", "statement": "The custom JVP of kepler equals the derivative of the exact true anomaly along any differentiable path (M(s), e(s)): d(sin f) = cos f * fdot and d(cos f) = -sin f * fdot with fdot given by implicit differentiation of Kepler's equation.", "quantifier": "all differentiable paths with 0<=e<1", "why_tests_cant": "The claim ranges over a continuum of real inputs; sampled grids cannot exclude an isolated bad point or a wrong branch boundary.", "anchors": ["src/jaxoplanet/core/kepler.py:_kepler.defjvp"]}
{"id": "C07", "title": "No occultation means zero flux change", "statement": "core.limb_dark.light_curve(u,b,r)=0 exactly whenever |b| >= 1+|r|, for every limb-darkening vector u with non-zero disk flux.", "quantifier": "all u of any length, all b, r with |b|>=1+|r|, any quadrature rule", "why_tests_cant": "The claim ranges over a continuum of real inputs; sampled grids cannot exclude an isolated bad point or a wrong branch boundary.", "anchors": ["src/jaxoplanet/core/limb_dark.py:light_curve", "src/jaxoplanet/core/limb_dark.py:solution_vector"]}
{"id": "C08", "title": "Full occultation removes all the flux", "statement": "core.limb_dark.light_curve(u,b,r) = -1 whenever the occultor covers the whole disk, |r| >= 1+|b| (documented exception: b=0,|r|=1).", "quantifier": "all u of any length, all b, r with |r|>=1+|b|, any quadrature rule", "why_tests_cant": "The claim ranges over a continuum of real inputs; sampled grids cannot exclude an isolated bad point or a wrong branch boundary.", "anchors": ["src/jaxoplanet/core/limb_dark.py:light_curve", "src/jaxoplanet/core/limb_dark.py:solution_vector", "src/jaxoplanet/core/limb_dark.py:kappas"]}
{"id": "C09", "title": "The limb darkened light curve is even in b and r", "statement": "light_curve(u,b,r)=light_curve(u,-b,r)=light_curve(u,b,-r).", "quantifier": "all u,b,r, any quadrature order", "why_tests_cant": "The claim ranges over a continuum of real inputs; sampled grids cannot exclude an isolated bad point or a wrong branch boundary.", "anchors": ["src/jaxoplanet/core/limb_dark.py:solution_vector"]}
{"id": "C10", "title": "Green's basis change preserves the intensity profile", "statement": "The coefficients g used internally represent exactly the polynomial limb darkening law: sum_n g_n gtilde_n(z) = 1 - sum_n u_n (1-z)^n for every z, with gtilde_0=1, gtilde_1=z, gtilde_n=(n+2)z^n-n z^(n-2).", "quantifier": "all u of any length, all z", "why_tests_cant": "Universally quantified over vector length and coefficients; unit tests fix the length.", "anchors": ["src/jaxoplanet/core/limb_dark.py:greens_basis_transform"]}
{"id": "C11", "title": "Flux normalisation is the disk-integrated intensity", "statement": "The factor pi*(g0+g1/1.5) by which the light curve is normalised equals the integral of the limb darkened profile over the unit disk, and equals pi*(1 - sum_n 2u_n/((n+1)(n+2))).", "quantifier": "all u of any length", "why_tests_cant": "The claim ranges over a continuum of real inputs; sampled grids cannot exclude an isolated bad point or a wrong branch boundary.", "anchors": ["src/jaxoplanet/core/limb_dark.py:light_curve", "src/jaxoplanet/core/limb_dark.py:greens_basis_transform"]}
{"id": "C12", "title": "Uniform disk: the light curve is the exact geometrical overlap", "statement": "For u=() light_curve(b,r) = -A(b,r)/pi where A is the area of the intersection of the unit disk with the disk of radius r centred at distance b (defined independently, as an integral of chord lengths).", "quantifier": "all b>=0, r>0", "why_tests_cant": "The claim ranges over a continuum of real inputs; sampled grids cannot exclude an isolated bad point or a wrong branch boundary.", "anchors": ["src/jaxoplanet/core/limb_dark.py:light_curve", "src/jaxoplanet/core/limb_dark.py:s0s2", "src/jaxoplanet/core/limb_dark.py:kappas", "src/jaxoplanet/core/limb_dark.py:kite_area"]}
{"id": "C13", "title": "Uniform disk: light curve stays between -1 and 0", "statement": "For u=() the light curve lies in [-1,0] for every b and r.", "quantifier": "all b, r", "why_tests_cant": "The claim ranges over a continuum of real inputs; sampled grids cannot exclude an isolated bad point or a wrong branch boundary.", "anchors": ["src/jaxoplanet/core/limb_dark.py:light_curve", "src/jaxoplanet/core/limb_dark.py:s0s2"]}
{"id": "C14", "title": "kite_area is Heron's formula, symmetric in its sides", "statement": "kite_area(a,b,c) is four times the triangle area (16 A^2 = Heron), is invariant under every permutation of its arguments, and never takes a negative square root.", "quantifier": "all reals a,b,c", "why_tests_cant": "The claim ranges over a continuum of real inputs; sampled grids cannot exclude an isolated bad point or a wrong branch boundary.", "anchors": ["src/jaxoplanet/core/limb_dark.py:kite_area"]}
{"id": "C15", "title": "kappas are the angles of the star-planet triangle", "statement": "In the partial-occultation regime |1-r|<b<1+r the two angles returned by kappas satisfy the law of cosines, cos(kappa1)=(1+b^2-r^2)/(2b), cos(kappa0)=(b^2+r^2-1)/(2br) and lie strictly between 0 and pi.", "quantifier": "all r>0, |1-r|<b<1+r", "why_tests_cant": "The claim ranges over a continuum of real inputs; sampled grids cannot exclude an isolated bad point or a wrong branch boundary.", "anchors": ["src/jaxoplanet/core/limb_dark.py:kappas"]}
{"id": "C16", "title": "zero_safe_sqrt is sqrt with a finite derivative", "statement": "zero_safe_sqrt(x)=sqrt(x) for every x>=0, its derivative rule is the true derivative above 10 eps, and at x=0 the derivative it reports is 0 for every tangent (finite).", "quantifier": "all x>=0, all tangents, all eps>0", "why_tests_cant": "The claim ranges over a continuum of real inputs; sampled grids cannot exclude an isolated bad point or a wrong branch boundary.", "anchors": ["src/jaxoplanet/utils.py:zero_safe_sqrt"]}
{"id": "C17", "title": "Transit light curve is flat off transit", "statement": "light_curves.limb_dark.light_curve(orbit,*u)(t)=0 at every time at which the orbiting body is behind or in the plane of the sky (z<=0) or separated from the star by at least 1+radius ratio.", "quantifier": "every orbit, every time, all u", "why_tests_cant": "The claim ranges over a continuum of real inputs; sampled grids cannot exclude an isolated bad point or a wrong branch boundary.", "anchors": ["src/jaxoplanet/light_curves/limb_dark.py:light_curve"]}
{"id": "C18", "title": "Emission light curve adds the eclipses of all bodies", "statement": "emission.light_curve(system)(t)[0] = 1 + sum over bodies of their limb-darkened dips when z>0; entry i+1 is amplitude_i*(1+ dip of body i when z<0), hence amplitude_i whenever the body is in front of the star, and 0 when totally hidden.", "quantifier": "all systems (any number of bodies), all times", "why_tests_cant": "The claim ranges over a continuum of real inputs; sampled grids cannot exclude an isolated bad point or a wrong branch boundary.", "anchors": ["src/jaxoplanet/light_curves/emission.py:light_curve"]}
{"id": "C19", "title": "Exposure integration weights average correctly", "statement": "integrate(f, exposure, order, n) applied to a constant returns the constant, to a linear function returns its mid-exposure value, for orders 0,1,2 and every num_samples; order 2 is exact on cubics for num_samples>=2.", "quantifier": "all light curve functions of these classes, all exposure times, all num_samples >= 2 (0/1 documented exception)", "why_tests_cant": "num_samples is unbounded; the stencil for each is different.", "anchors": ["src/jaxoplanet/light_curves/transforms.py:integrate", "src/jaxoplanet/light_curves/transforms.py:apply_exposure_time_integration"]}
{"id": "C20", "title": "Exposure integration samples stay inside the exposure", "statement": "All evaluation times used by integrate(f) at time t lie in [t-exposure/2,t+exposure/2], are symmetric about t (for num_samples>=2), are odd in number, and the weights are positive and sum to one; so the result is bounded by the bounds of f over the exposure.", "quantifier": "all num_samples, orders 0..2, exposure>=0, all f", "why_tests_cant": "The claim ranges over a continuum of real inputs; sampled grids cannot exclude an isolated bad point or a wrong branch boundary.", "anchors": ["src/jaxoplanet/light_curves/transforms.py:integrate"]}
{"id": "C21", "title": "integrate validates its configuration", "statement": "integrate returns the function unchanged iff exposure_time is None, raises ValueError for a non-scalar exposure and for any order other than 0, 1, 2, and otherwise returns a function.", "quantifier": "all argument combinations", "why_tests_cant": "Decision table over unbounded ints.", "anchors": ["src/jaxoplanet/light_curves/transforms.py:integrate"]}
{"id": "C22", "title": "interpolate is periodic and reproduces the grid", "statement": "The interpolated light curve has period `period`, agrees with the original function at every grid time in the window, and stays within the range of the pre-computed grid values.", "quantifier": "all functions, periods, transit times, num_samples, times", "why_tests_cant": "The claim ranges over a continuum of real inputs; sampled grids cannot exclude an isolated bad point or a wrong branch boundary.", "anchors": ["src/jaxoplanet/light_curves/transforms.py:interpolate"]}
{"id": "C23", "title": "vectorize is element-wise", "statement": "vectorize(f) applied to an array of any shape returns an array of the same shape whose element at each index is f of the element, for times with or without units.", "quantifier": "arrays of every rank and shape", "why_tests_cant": "rank and shape are unbounded.", "anchors": ["src/jaxoplanet/light_curves/utils.py:vectorize"]}
{"id": "C24", "title": "TransitOrbit: duration/speed consistency", "statement": "Whichever of duration/speed is given, speed*duration = 2 sqrt(max(0,(1+ror)^2-b^2)); neither gives ValueError; if both are given duration wins.", "quantifier": "all parameters (non-zero divisor)", "why_tests_cant": "The claim ranges over a continuum of real inputs; sampled grids cannot exclude an isolated bad point or a wrong branch boundary.", "anchors": ["src/jaxoplanet/orbits/transit.py:TransitOrbit.__init__"]}
{"id": "C25", "title": "TransitOrbit: transits happen at time_transit + k*period", "statement": "relative_position is periodic with the period; at every time_transit+k*period it is (0, b, +1); the folded time lies in [-P/2,P/2).", "quantifier": "all times, all integers k, P>0", "why_tests_cant": "The claim ranges over a continuum of real inputs; sampled grids cannot exclude an isolated bad point or a wrong branch boundary.", "anchors": ["src/jaxoplanet/orbits/transit.py:TransitOrbit.relative_position"]}
{"id": "C26", "title": "TransitOrbit: front/behind flag and contact points match the duration", "statement": "z=+1 exactly within duration/2 of a transit centre and -1 otherwise, so light_curve is exactly zero outside duration/2 and the sky separation equals 1+ror at exactly duration/2 from mid-transit.", "quantifier": "all times, all parameters with P>0, duration<=P", "why_tests_cant": "The claim ranges over a continuum of real inputs; sampled grids cannot exclude an isolated bad point or a wrong branch boundary.", "anchors": ["src/jaxoplanet/orbits/transit.py:TransitOrbit.relative_position", "src/jaxoplanet/light_curves/limb_dark.py:light_curve"]}
{"id": "C27", "title": "TTVOrbit: the linear ephemeris is the least-squares fit", "statement": "(t0, period) inferred from transit times minimise the sum of squared residuals over all lines, residuals sum to zero and are orthogonal to the indices; exactly linear times are recovered exactly with zero ttvs.", "quantifier": "all lists of transit times/indices of any length with two distinct indices", "why_tests_cant": "unbounded list length and real data.", "anchors": ["src/jaxoplanet/orbits/ttv.py:_compute_linear_ephemeris_single"]}
{"id": "C28", "title": "TTVOrbit: each time is assigned to the nearest observed transit", "statement": "For sorted transit times the time-warp lookup assigns every time t to a transit time minimising |t-tt_i|.", "quantifier": "all sorted lists of transit times, all t, any period>0", "why_tests_cant": "unbounded list length, all real t.", "anchors": ["src/jaxoplanet/orbits/ttv.py:_compute_bin_edges_values_single", "src/jaxoplanet/orbits/ttv.py:_process_planet_dt_single"]}
{"id": "C29", "title": "TTVOrbit: planet is at mid transit at each observed transit time", "statement": "A TTVOrbit built from transit times stores those times and the least-squares ephemeris of each planet, its base orbit has the fitted (or given) reference time and the given period or the fitted period times exp(delta_log_period), and at each stored transit time the planet is at mid-transit; built from ttvs, the times are t0 + period*n + (ttv - mean). Invalid combinations raise. With an overridden time_transit the stored times are not mid-transits.", "quantifier": "all sorted transit time lists, every index", "why_tests_cant": "unbounded list length.", "anchors": ["src/jaxoplanet/orbits/ttv.py:TTVOrbit.__init__", "src/jaxoplanet/orbits/ttv.py:TTVOrbit._warp_times", "src/jaxoplanet/orbits/ttv.py:TTVOrbit.relative_position"]}
{"id": "C30", "title": "compute_expected_transit_times lists exactly the transits in the window", "statement": "Returned times are exactly the t0+k*P inside [min_time,max_time], each once, in increasing order.", "quantifier": "all real windows, t0, P>0", "why_tests_cant": "all real inputs; boundary off-by-ones.", "anchors": ["src/jaxoplanet/orbits/ttv.py:compute_expected_transit_times"]}
{"id": "C31", "title": "Central accepts exactly the consistent parameter sets", "statement": "Central() accepts exactly: nothing, density, (mass,radius), (mass,density), (radius,density); every accepted Central satisfies density = 3 mass/(4 pi radius^3) and keeps the values supplied.", "quantifier": "all argument combinations, all positive values", "why_tests_cant": "The claim ranges over a continuum of real inputs; sampled grids cannot exclude an isolated bad point or a wrong branch boundary.", "anchors": ["src/jaxoplanet/orbits/keplerian.py:Central.__init__"]}
{"id": "C32", "title": "Kepler's third law", "statement": "For every OrbitalBody, whether built from period or from semimajor, 4 pi^2 a^3 = G (M_central+M_body) P^2; Central.from_orbital_properties inverts this so that the body built on it from the same period has the given semimajor axis.", "quantifier": "all positive masses, periods, semimajor axes", "why_tests_cant": "The claim ranges over a continuum of real inputs; sampled grids cannot exclude an isolated bad point or a wrong branch boundary.", "anchors": ["src/jaxoplanet/orbits/keplerian.py:OrbitalBody.__init__", "src/jaxoplanet/orbits/keplerian.py:Central.from_orbital_properties"]}
{"id": "C33", "title": "Body validates its parameters", "statement": "Body construction succeeds exactly when: exactly one of period/semimajor; omega_peri not mixed with its sin/cos; sin/cos given in pairs; eccentricity given iff omega given; at most one of impact_param/inclination; at most one of time_transit/time_peri; scalars only.", "quantifier": "all subsets of arguments", "why_tests_cant": "2^17 argument subsets.", "anchors": ["src/jaxoplanet/orbits/keplerian.py:Body.__check_init__"]}
{"id": "C34", "title": "Reference times are mutually consistent", "statement": "time_peri - time_transit is the offset of periastron; supplying time_peri gives back the same time_peri; at time_peri the body is at distance a(1-e) from the central, for the actual solver.", "quantifier": "all orbits, 0<=e<1", "why_tests_cant": "The claim ranges over a continuum of real inputs; sampled grids cannot exclude an isolated bad point or a wrong branch boundary.", "anchors": ["src/jaxoplanet/orbits/keplerian.py:OrbitalBody.__init__", "src/jaxoplanet/orbits/keplerian.py:OrbitalBody.time_peri", "src/jaxoplanet/orbits/keplerian.py:OrbitalBody.relative_position"]}
{"id": "C35", "title": "At time_transit the planet transits with the requested impact parameter", "statement": "At time_transit the sky-projected separation is |impact_param|*R_star and the body is in front of the star (z>0), for every orbit with sin(omega_peri) != -1 solved with an exact Kepler solution; at sin(omega_peri) = -1 exactly (given through sin/cos) the statement fails and the body is behind the star.", "quantifier": "all circular orbits; all eccentric orbits with an exact Kepler solver (except sin_omega=-1)", "why_tests_cant": "The claim ranges over a continuum of real inputs; sampled grids cannot exclude an isolated bad point or a wrong branch boundary.", "anchors": ["src/jaxoplanet/orbits/keplerian.py:OrbitalBody.__init__", "src/jaxoplanet/orbits/keplerian.py:OrbitalBody.relative_position"]}
{"id": "C36", "title": "Orbital distance bounds", "statement": "a(1-e) <= |relative position| <= a(1+e) at all times, = a for circular orbits.", "quantifier": "all times, all orbits", "why_tests_cant": "The claim ranges over a continuum of real inputs; sampled grids cannot exclude an isolated bad point or a wrong branch boundary.", "anchors": ["src/jaxoplanet/orbits/keplerian.py:OrbitalBody.relative_position", "src/jaxoplanet/orbits/keplerian.py:OrbitalBody._rotate_vector"]}
{"id": "C37", "title": "Orbits repeat with their period", "statement": "relative_position, position, velocity and radial_velocity are periodic with the orbital period.", "quantifier": "all times, all integers k, all orbits", "why_tests_cant": "The claim ranges over a continuum of real inputs; sampled grids cannot exclude an isolated bad point or a wrong branch boundary.", "anchors": ["src/jaxoplanet/orbits/keplerian.py:OrbitalBody._get_true_anomaly"]}
{"id": "C38", "title": "Barycentric consistency", "statement": "m*position + M*central_position = 0 and relative_position = position - central_position; the same for velocities when no semiamplitude is given.", "quantifier": "all orbits, all times", "why_tests_cant": "The claim ranges over a continuum of real inputs; sampled grids cannot exclude an isolated bad point or a wrong branch boundary.", "anchors": ["src/jaxoplanet/orbits/keplerian.py:OrbitalBody.position", "src/jaxoplanet/orbits/keplerian.py:OrbitalBody.central_position", "src/jaxoplanet/orbits/keplerian.py:OrbitalBody.velocity"]}
{"id": "C39", "title": "Velocity is the time derivative of position", "statement": "velocity, central_velocity and relative_velocity equal d/dt of position, central_position, relative_position.", "quantifier": "all circular orbits; eccentric orbits with an exact Kepler solver; all times", "why_tests_cant": "The claim ranges over a continuum of real inputs; sampled grids cannot exclude an isolated bad point or a wrong branch boundary.", "anchors": ["src/jaxoplanet/orbits/keplerian.py:OrbitalBody._get_position_and_velocity"]}
{"id": "C40", "title": "Radial velocity follows the standard formula", "statement": "radial_velocity(t, semiamplitude=K) = K (cos(omega+f) + e cos omega), and radial_velocity is minus the z component of central_velocity.", "quantifier": "all times, all orbits, all K", "why_tests_cant": "The claim ranges over a continuum of real inputs; sampled grids cannot exclude an isolated bad point or a wrong branch boundary.", "anchors": ["src/jaxoplanet/orbits/keplerian.py:OrbitalBody.radial_velocity", "src/jaxoplanet/orbits/keplerian.py:OrbitalBody.central_velocity"]}
{"id": "C41", "title": "A stored radial_velocity_semiamplitude is the star's semiamplitude", "statement": "Setting Body(radial_velocity_semiamplitude=K) gives the same central velocity and radial velocity as passing semiamplitude=K to each method; the body velocity and the relative velocity are NOT the same as when passing K: they are the central's velocity.", "quantifier": "all orbits, times, K", "why_tests_cant": "The claim ranges over a continuum of real inputs; sampled grids cannot exclude an isolated bad point or a wrong branch boundary.", "anchors": ["src/jaxoplanet/orbits/keplerian.py:OrbitalBody.velocity", "src/jaxoplanet/orbits/keplerian.py:OrbitalBody.relative_velocity", "src/jaxoplanet/orbits/keplerian.py:OrbitalBody._get_position_and_velocity"]}
{"id": "C42", "title": "The ascending node only rotates the sky plane", "statement": "Changing asc_node leaves z and the projected separation unchanged, hence leaves every light curve unchanged; relative_angles returns the polar coordinates of the sky position.", "quantifier": "all orbits, all node angles, all times", "why_tests_cant": "The claim ranges over a continuum of real inputs; sampled grids cannot exclude an isolated bad point or a wrong branch boundary.", "anchors": ["src/jaxoplanet/orbits/keplerian.py:OrbitalBody._rotate_vector", "src/jaxoplanet/orbits/keplerian.py:OrbitalBody.relative_angles"]}
{"id": "C43", "title": "System.add_body appends and never disturbs", "statement": "After any sequence of add_body calls, bodies are in insertion order, shape is the number of bodies, and results for existing bodies do not change.", "quantifier": "all sequences of add_body calls", "why_tests_cant": "unbounded histories.", "anchors": ["src/jaxoplanet/orbits/keplerian.py:System.add_body", "src/jaxoplanet/orbits/keplerian.py:System.shape"]}
{"id": "C44", "title": "body_vmap equals applying the function body by body", "statement": "ObjectStack.vmap(func)(args) gives for body i func(body_i, args indexed at i along each non-None in_axes), whether or not the stacked fast path is taken; conversely it returns only if func returned for every body, always with the same structure, so one call that raises makes it raise.", "quantifier": "all stacks, all functions, all non-negative in_axes/out_axes", "why_tests_cant": "stack vs loop path, unbounded sizes, ranks.", "anchors": ["src/jaxoplanet/object_stack.py:ObjectStack.vmap", "src/jaxoplanet/object_stack.py:index_helper"]}
{"id": "C45", "title": "quantity_input normalises units", "statement": "Plain values acquire the declared unit, Quantities are converted with their physical value preserved, incompatible dimensions raise DimensionalityError, strict mode rejects plain values, None with default None passes through; applying it twice is the same as once.", "quantifier": "all units, values, signatures", "why_tests_cant": "all unit combinations and signatures.", "anchors": ["src/jaxoplanet/units/decorator.py:QuantityInput", "src/jaxoplanet/units/decorator.py:_apply_units", "src/jaxoplanet/units/field.py:field"]}
{"id": "C46", "title": "Polynomial basis indexings are mutually inverse", "statement": "n<->(l,m)<->(i,j,k) conversions are mutually inverse bijections, entry l^2+l+m is the monomial of the documented formula (mu=l-m, nu=l+m), from_dense/todense round trip with zero padding (truncation with an explicit degree), k outside {0,1} raises AssertionError. (The order listed in the class docstring, 1,x,y,z,..., is not the code's order 1,x,z,y,...)", "quantifier": "all n, all (l,m), all (i,j,k) with k in {0,1}", "why_tests_cant": "unbounded degree.", "anchors": ["src/jaxoplanet/starry/core/polynomials.py:Pijk.n2lm", "src/jaxoplanet/starry/core/polynomials.py:Pijk.lm2n", "src/jaxoplanet/starry/core/polynomials.py:Pijk.ijk2lm", "src/jaxoplanet/starry/core/polynomials.py:Pijk.lm2ijk", "src/jaxoplanet/starry/core/polynomials.py:Pijk.from_dense", "src/jaxoplanet/starry/core/polynomials.py:Pijk.todense"]}
{"id": "C47", "title": "Pijk arithmetic is polynomial arithmetic on the unit sphere", "statement": "(p+q) and (p*q) evaluate to the sum and product of evaluations at every point with x^2+y^2+z^2=1; keys stay admissible; the degree of the product is the sum; scalar multiplication scales; the coefficient vector of a function on the sphere is unique. p + scalar adds the scalar to every stored coefficient, hence does NOT add a constant.", "quantifier": "all polynomials of all degrees, all points of the sphere", "why_tests_cant": "unbounded degree, all points.", "anchors": ["src/jaxoplanet/starry/core/polynomials.py:_add", "src/jaxoplanet/starry/core/polynomials.py:_mul", "src/jaxoplanet/starry/core/polynomials.py:Pijk.__mul__", "src/jaxoplanet/starry/core/polynomials.py:Pijk.__add__"]}
{"id": "C48", "title": "Limb darkening polynomial is represented exactly on the sphere", "statement": "[1,u]@U evaluates to 1 - sum u_n (1-z)^n on the unit sphere, for every number of coefficients.", "quantifier": "all u, all points", "why_tests_cant": "unbounded degree.", "anchors": ["src/jaxoplanet/starry/core/basis.py:U", "src/jaxoplanet/starry/core/basis.py:u_p", "src/jaxoplanet/starry/core/basis.py:utilde"]}
{"id": "C49", "title": "poly_basis evaluates the declared monomials", "statement": "poly_basis(deg)(x,y,z)[n] = x^i y^j z^k where (i,j,k)=n2ijk(n), for every n < (deg+1)^2, no slot left unset.", "quantifier": "all degrees, all points", "why_tests_cant": "unbounded degree.", "anchors": ["src/jaxoplanet/starry/core/basis.py:poly_basis", "src/jaxoplanet/starry/core/basis.py:ptilde"]}
{"id": "C50", "title": "Spherical harmonic change of basis is the spherical harmonic", "statement": "The polynomial dictionary for (l,m) evaluates on the unit sphere to the real spherical harmonic defined by derivatives of Legendre polynomials (Rodrigues), has admissible exponents of degree at most l, and A1(D) applied to harmonic coefficients gives the polynomial coefficients of 2/sqrt(pi) times the harmonic sum; A1(D) is invertible.", "quantifier": "all l, |m|<=l, all points", "why_tests_cant": "unbounded degree.", "anchors": ["src/jaxoplanet/starry/core/basis.py:p_Y", "src/jaxoplanet/starry/core/basis.py:Ylm", "src/jaxoplanet/starry/core/basis.py:Alm", "src/jaxoplanet/starry/core/basis.py:Blmjk", "src/jaxoplanet/starry/core/basis.py:Cpqk"]}
{"id": "C51", "title": "Green's basis polynomials are curls of the integrand vector fields", "statement": "gtilde(n) equals the exterior derivative of Luger et al.'s vector field G_n, has no term outside degree l, and the change of basis matrix is invertible for every degree.", "quantifier": "all n, all lmax", "why_tests_cant": "unbounded degree.", "anchors": ["src/jaxoplanet/starry/core/basis.py:gtilde", "src/jaxoplanet/starry/core/basis.py:p_G", "src/jaxoplanet/starry/core/basis.py:A2_inv"]}
{"id": "C52", "title": "rT are the disk integrals of the polynomial basis", "statement": "rT(lmax)[n] is the integral over the visible unit disk of the n-th polynomial basis function.", "quantifier": "all lmax, all n", "why_tests_cant": "unbounded degree.", "anchors": ["src/jaxoplanet/starry/core/solution.py:rT"]}
{"id": "C53", "title": "z-rotation is a rotation", "statement": "dot_rz(deg, theta)(y): identity at 0, additive in theta, 2 pi periodic, preserves the power y_{l,m}^2+y_{l,-m}^2, acts as y'_{l,m}= y_{l,m} cos(m theta) + y_{l,-m} sin(m theta), the rotated map at p is the original map at p rotated by theta about z; a vector of another length raises ValueError. dot_rotation_matrix is the identity without an angle, raises without an axis, and is dot_rz when only a z component is given (its value being ignored).", "quantifier": "all degrees, all angles, all y", "why_tests_cant": "unbounded degree.", "anchors": ["src/jaxoplanet/starry/core/rotation.py:dot_rz"]}
{"id": "C54", "title": "Orientation axis-angle conversions are rotations", "statement": "sky_projection_axis_angle with both angles returns a unit axis and the rotation Rx(inc) Rz(-obl); with only the obliquity it returns Rz(+obl) instead of Rz(-obl). full_rotation_axis_angle returns a unit axis and the rotation Rz(obl+theta_z) Rx(pi/2-inc) Ry(theta) exactly when the cosine of the half angle is below 1-1e-5-eps, and the identity otherwise (so true rotations by less than about half a degree are dropped).", "quantifier": "all inclinations and obliquities", "why_tests_cant": "The claim ranges over a continuum of real inputs; sampled grids cannot exclude an isolated bad point or a wrong branch boundary.", "anchors": ["src/jaxoplanet/starry/core/rotation.py:full_rotation_axis_angle", "src/jaxoplanet/starry/core/rotation.py:sky_projection_axis_angle"]}
{"id": "C55", "title": "Ylm dense/sparse round trip and normalisation", "statement": "from_dense(y,normalize=False).todense() is y padded with zeros to the next (l+1)^2; for a dictionary of admissible (l,m) todense()[l^2+l+m] and ylm[(l,m)] are its coefficient and the dense vector represents the same function; normalize divides by the (0,0) coefficient, is idempotent, raises KeyError when it is missing and ZeroDivisionError (not the documented ValueError) when it is the float 0; ylm[(l,m)] with l beyond the degree returns the coefficient (deg,deg); an inadmissible order is silently added to another coefficient.", "quantifier": "all vectors of all lengths", "why_tests_cant": "unbounded length.", "anchors": ["src/jaxoplanet/starry/ylm.py:Ylm.from_dense", "src/jaxoplanet/starry/ylm.py:Ylm.todense", "src/jaxoplanet/starry/ylm.py:Ylm.normalize"]}
{"id": "C56", "title": "Product of Ylm expansions is the product of the functions", "statement": "Ylm*Ylm does NOT represent the product of the two functions: multiplying by the constant map {(0,0):a} multiplies each coefficient (l,m) by (-1)^l sqrt(2l+1) a/sqrt(4 pi) (instead of a/sqrt(4 pi)), and the product is not commutative.", "quantifier": "all expansions, all points", "why_tests_cant": "unbounded degree.", "anchors": ["src/jaxoplanet/starry/ylm.py:_mul"]}
{"id": "C57", "title": "Polynomial product matrix multiplies polynomials", "statement": "polynomial_product_matrix(p, degree) @ q are the coefficients of the product of q with p padded to the next degree by copies of p's last coefficient; hence it is the product of p and q when the last coefficient of p is 0, and not in general.", "quantifier": "all p, degree", "why_tests_cant": "unbounded degree.", "anchors": ["src/jaxoplanet/starry/core/polynomials.py:polynomial_product_matrix"]}
{"id": "C58", "title": "surface_light_curve scales with the surface amplitude", "statement": "surface_light_curve is proportional to surface.amplitude for every map of degree at least 1 and for every map without an occultor; for a degree-0 map with an occultor (in front or not) the amplitude has no effect.", "quantifier": "all surfaces, occultor positions", "why_tests_cant": "The claim ranges over a continuum of real inputs; sampled grids cannot exclude an isolated bad point or a wrong branch boundary.", "anchors": ["src/jaxoplanet/starry/light_curves.py:surface_light_curve"]}
{"id": "C59", "title": "System observables combine bodies correctly", "statement": "The central entry of a system observable is f0 + sum_i (f_i - f0), f0 being the central's observable alone and f_i that with body i at its relative position in units of the central radius; entry 1+i is body i's surface seen with the central at the opposite position in units of the body's radius, 0 without a surface. With no body in front the central entry is the flux of the star alone, except for degree-0 maps, for which it is n - (n-1) f0.", "quantifier": "all systems, any number of bodies, all times", "why_tests_cant": "The claim ranges over a continuum of real inputs; sampled grids cannot exclude an isolated bad point or a wrong branch boundary.", "anchors": ["src/jaxoplanet/starry/system_observable.py:system_observable"]}
{"id": "C60", "title": "Surface stays aligned with its body", "statement": "In a SurfaceSystem, after any sequence of add_body calls, body i is paired with the surface supplied with it (or, failing that, with the body's own surface), and the result is the same as constructing the system with all bodies at once.", "quantifier": "all add_body histories", "why_tests_cant": "unbounded histories.", "anchors": ["src/jaxoplanet/starry/orbit.py:SurfaceSystem.add_body"]}
{"id": "C61", "title": "Reflex radial velocity of a multi-planet system", "statement": "starry.doppler.radial_velocity adds to the central's entry the reflex velocity due to the first body only; it fails for scalar times and for systems without bodies.", "quantifier": "all systems, any number of bodies", "why_tests_cant": "The claim ranges over a continuum of real inputs; sampled grids cannot exclude an isolated bad point or a wrong branch boundary.", "anchors": ["src/jaxoplanet/starry/doppler.py:radial_velocity"]}
{"id": "C62", "title": "Rigid and differential rotation velocity field", "statement": "The velocity field of a surface is the recession velocity of a rigidly rotating sphere of equatorial speed veq, inclination inc and obliquity obl, and rv_map_expansion with a shear alpha multiplies it by 1 - alpha sin(latitude)^2; surface_radial_velocity without a transit is amplitude times the flux-weighted mean of that field over the visible disk; no period or a shear of the surface is an error.", "quantifier": "all points, inclinations, obliquities, shears", "why_tests_cant": "The claim ranges over a continuum of real inputs; sampled grids cannot exclude an isolated bad point or a wrong branch boundary.", "anchors": ["src/jaxoplanet/starry/doppler.py:rv_map_expansion"]}
{"id": "C63", "title": "Wigner 3j selection and normalisation", "statement": "Wigner3j(j1,j2,j3,m1,m2,m3), for all integer arguments in any order, raises nothing and returns the 3j symbol: Racah's formula within the selection rules and 0 outside; the family returned by the calculator for fixed (j2,j3,m2,m3) is the one normalised solution of the Schulten-Gordon three-term recurrence (sum (2j+1) f(j)^2 = 1, sign (-1)^(j2-j3+m2+m3) at the largest j), whatever branch of the Luscombe-Luban algorithm is taken; and the Clebsch-Gordan coefficients are orthonormal over the total angular momentum.", "quantifier": "all l2,l3,m2,m3", "why_tests_cant": "unbounded indices.", "anchors": ["src/jaxoplanet/starry/core/wigner3j.py:Wigner3j", "src/jaxoplanet/starry/core/wigner3j.py:normalize", "src/jaxoplanet/starry/core/wigner3j.py:determine_signs"]}
{"id": "C64", "title": "Orthographic grid lies on the sphere", "statement": "ortho_grid(res) lists the res*res points of the square [-1,1]^2 row by row; outside the unit disk all coordinates but x are NaN, inside (x,y,z) is on the visible half of the unit sphere and (lat, lon) are its latitude and longitude. Surface.render(theta,res) is the res x res image of the intensity seen at these points (times the recession velocity when rv=True), NaN outside the disk. y1d_to_2d places coefficient (l,m) at row l, column m+ydeg, zeros elsewhere, and y2d_to_1d undoes it.", "quantifier": "all resolutions, all coefficient vectors", "why_tests_cant": "unbounded size.", "anchors": ["src/jaxoplanet/starry/utils.py:ortho_grid", "src/jaxoplanet/starry/utils.py:y1d_to_2d", "src/jaxoplanet/starry/utils.py:y2d_to_1d"]}
{"id": "C66", "title": "TTVOrbit reads transit times and ttvs as numbers of days", "statement": "The orbit built from transit_times/ttvs depends only on their numerical magnitudes: a Quantity in another time unit is read as days without conversion (so hours given as a Quantity do not give the orbit of the same times in days).", "quantifier": "all arrays of times and all time units", "why_tests_cant": "all unit choices and values.", "anchors": ["src/jaxoplanet/orbits/ttv.py:ensure_quantity", "src/jaxoplanet/orbits/ttv.py:TTVOrbit.__init__"]}
{"id": "C67", "title": "TTVOrbit evaluated on an array of times is the pointwise evaluation", "statement": "Evaluating a TTVOrbit at an array of times gives, for each planet and time, the scalar evaluation for a single planet; for several planets the result differs or the call raises.", "quantifier": "all orbits, all arrays of times", "why_tests_cant": "unbounded sizes of arrays and systems.", "anchors": ["src/jaxoplanet/orbits/ttv.py:TTVOrbit._warp_times"]}
{"id": "C68", "title": "Bodies without a mass", "statement": "For a body built without mass and without a semi-amplitude, central_position raises TypeError at every time, while central_velocity and radial_velocity silently behave as if the factor mass/total_mass were one (body of 1 M_sun over a total mass of 1).", "quantifier": "all massless bodies, all times", "why_tests_cant": "every orbit and time; tests try one body", "anchors": ["src/jaxoplanet/orbits/keplerian.py:OrbitalBody.central_position", "src/jaxoplanet/orbits/keplerian.py:OrbitalBody.central_velocity"]}
{"id": "C69", "title": "Rotating spherical-harmonic coefficients about any axis rotates the map", "statement": "dot_rotation_matrix(ydeg, x, y, z, theta)(y) with an x or y component returns the coefficients of the map p -> map_y(p rotated by theta about (x,y,z)/|(x,y,z)|); it is the identity at theta=0, composes additively in theta, preserves the power of every degree, agrees with the z-only path about +z, and raises ValueError for another length. With only a z component the value of z is ignored, so a negative z axis rotates the wrong way.", "quantifier": "all degrees, axes, angles and coefficient vectors", "why_tests_cant": "unbounded degree and real-valued parameters; tests compare a few degrees with a symbolic computation.", "anchors": ["src/jaxoplanet/starry/core/rotation.py:dot_rotation_matrix", "src/jaxoplanet/starry/core/s2fft_rotation.py:compute_rotation_matrices", "src/jaxoplanet/starry/core/s2fft_rotation.py:_compute_full"]}
{"id": "C70", "title": "left_project and right_project change frame and are mutually inverse", "statement": "left_project(y) is the map p -> map_y(Rx(-pi/2) Rz(-theta) Rx(inc) Rz(-obl) Rz(-theta_z) p) (absent angles are 0) and right_project undoes it, whenever inc is given or obl is not. With obl but no inc the obliquity enters with the opposite sign and right_project(left_project(y)) is y rotated by twice the obliquity.", "quantifier": "all degrees, angles (present or None) and coefficient vectors", "why_tests_cant": "unbounded degree, real angles; tests use a few angle tuples and never obl without inc.", "anchors": ["src/jaxoplanet/starry/core/rotation.py:left_project", "src/jaxoplanet/starry/core/rotation.py:right_project"]}
{"id": "C71", "title": "Ylm.from_limb_darkening is the normalised limb-darkening profile", "statement": "The map returned by Ylm.from_limb_darkening(u), times starry's 2/sqrt(pi), equals (1 - sum u_n (1-z)^n) / (its integral over the visible disk) at every point of the sphere, has degree len(u) and emits unit flux.", "quantifier": "all coefficient vectors u of any length, all points of the sphere", "why_tests_cant": "unbounded number of coefficients, all points.", "anchors": ["src/jaxoplanet/starry/ylm.py:Ylm.from_limb_darkening"]}
{"id": "C65", "title": "Kepler's equation is solved to rounding accuracy by the fixed number of steps", "statement": "For every eccentricity in [0,1) and every mean anomaly, without iteration to convergence: the starting value is within 0.08% of the root of Kepler's equation, and the eccentric anomaly obtained after the single refinement is within 1.2e-15 of it relative to its distance from the nearest periapsis; kepler(M, ecc) is within 4e-15 of the sine and cosine of the true anomaly (M at least 8e-15 away from apoapsis), and the positions and radial velocities of a Keplerian body are within 4e-15 semimajor axes and 6e-15 semi-amplitudes of the exact ones.", "quantifier": "all mean anomalies and all eccentricities in [0,1), exact real arithmetic", "why_tests_cant": "tests sample a grid of (M, e); the error of a non-iterative solver has to be bounded on the whole continuum, including e -> 1 at small M", "anchors": ["src/jaxoplanet/core/kepler.py:starter", "src/jaxoplanet/core/kepler.py:refine", "src/jaxoplanet/core/kepler.py:_kepler", "src/jaxoplanet/orbits/keplerian.py:OrbitalBody.relative_position", "src/jaxoplanet/orbits/keplerian.py:OrbitalBody.radial_velocity"]}
{"id": "C72", "title": "ylm_spot is a zonal spot at (lat, lon)", "statement": "ylm_spot(ydeg)(contrast, r, lat, lon) is the map (1 + contrast*g(cos of the angular distance to (lat, lon)))/pi with g independent of contrast, lat and lon, g being the smoothed penalised least-squares Legendre fit of the sigmoid spot profile; the profile lies in (-1, 0), is -1/2 at the radius and increases.", "quantifier": "all degrees, resolutions, contrasts, radii, positions", "why_tests_cant": "infinitely many parameters", "anchors": ["src/jaxoplanet/starry/ylm.py:ylm_spot"]}
{"id": "C73", "title": "Surface shows its map with the stated geometry", "statement": "Surface.intensity at a sky point is the amplitude times the spherical-harmonic map at the map point seen there, times the limb darkening; the pole is seen at (-sin inc sin obl, sin inc cos obl, cos inc); the default surface has intensity ld/pi; normalisation moves the (0,0) coefficient to the amplitude; the rotational phase advances by 2 pi per period. Surface.intensity(lat, lon) evaluates the map at (-lat, -lon).", "quantifier": "all surfaces and directions", "why_tests_cant": "infinitely many maps and directions", "anchors": ["src/jaxoplanet/starry/surface.py:Surface", "src/jaxoplanet/starry/surface.py:Surface.intensity", "src/jaxoplanet/starry/surface.py:Surface.render"]}
{"id": "C74", "title": "The flux of an unocculted surface", "statement": "surface_light_curve without an occultor, or (for degree at least 1) with one that is behind or does not overlap, is amplitude times the integral over the visible disk of the intensity that render shows, over the mean of the limb-darkening profile; for a uniform map this is amplitude times coefficient. A degree-0 map with an occultor gives 1, or 1 plus the limb-darkened light curve.", "quantifier": "all surfaces, orientations, rotation phases and occultor positions", "why_tests_cant": "infinitely many maps and orientations", "anchors": ["src/jaxoplanet/starry/light_curves.py:surface_light_curve"]}
{"id": "C75", "title": "The limb-darkened light curve is the visible flux", "statement": "light_curve(u, b, r) + 1 is the surface integral of the intensity over the part of the stellar disk outside the occultor, divided by its integral over the whole disk, for every limb-darkening polynomial and every position and radius: the zeroth, second and limb terms are exact, and the only error is that of the quadrature rule on the edge integrals of the terms of degree 1 and above 2 (so a rule that is exact on them, or any rule for a concentric occultor, gives the exact visible flux); the visible flux is between zero and the whole.", "quantifier": "all limb-darkening coefficient lists, impact parameters, radius ratios and quadrature rules", "why_tests_cant": "a continuum of configurations, and a surface integral no test can evaluate exactly", "anchors": ["src/jaxoplanet/core/limb_dark.py:light_curve", "src/jaxoplanet/core/limb_dark.py:solution_vector", "src/jaxoplanet/core/limb_dark.py:p_integral", "src/jaxoplanet/core/limb_dark.py:s0s2"]}
{"id": "C77", "title": "The starry solution vector is the visible flux of the Green's basis functions", "statement": "Entry l^2+nu of solution_vector(lmax)(b, r) is the surface integral, over the part of the unit disk that an occultor of radius |r| at (0,|b|) does not hide, of the n-th function of the Green's basis: up to the error of the quadrature rules on the edge integrals when part of the disk is hidden, exactly when none or all of it is hidden - except for a concentric occultor of radius exactly 1, which is treated as hiding nothing.", "quantifier": "all degrees, all basis functions, impact parameters, radii and quadrature rules", "why_tests_cant": "unbounded degree and a continuum of configurations; a surface integral no test can evaluate exactly.", "anchors": ["src/jaxoplanet/starry/core/solution.py:solution_vector", "src/jaxoplanet/starry/core/solution.py:kappas", "src/jaxoplanet/starry/core/solution.py:q_integral", "src/jaxoplanet/starry/core/solution.py:p_integral"]}
{"id": "C78", "title": "The light curve of an occulted surface is its visible flux", "statement": "For a map of degree at least 1 with an occultor in front at (x, y, z>0), surface_light_curve is amplitude times the integral of the intensity on the sky over the part of the disk outside the occultor, over the mean of the limb-darkening profile, up to the error of the quadrature rules on the edge integrals (with explicit coefficients that depend on neither the radius nor the rules); a total eclipse gives exactly 0, except that an occultor of radius exactly 1 at the centre leaves all the light.", "quantifier": "all surfaces, orientations, phases, occultor positions and radii, quadrature rules", "why_tests_cant": "a continuum of configurations, unbounded degree.", "anchors": ["src/jaxoplanet/starry/light_curves.py:surface_light_curve", "src/jaxoplanet/starry/core/solution.py:solution_vector", "src/jaxoplanet/starry/core/rotation.py:left_project"]}
{"id": "C79", "title": "The radial velocity of an occulted surface", "statement": "With an occultor in front, surface_radial_velocity is amplitude times the mean of the recession velocity of the rotating star over the unhidden part of the disk weighted by the intensity (Rossiter-McLaughlin effect), up to the error of the quadrature rules on the edge integrals.", "quantifier": "all surfaces with a period and no shear, orientations, phases, occultor positions and radii, quadrature rules", "why_tests_cant": "a continuum of configurations, unbounded degree.", "anchors": ["src/jaxoplanet/starry/doppler.py:surface_radial_velocity", "src/jaxoplanet/starry/light_curves.py:surface_light_curve"]}
{"id": "C76", "title": "The graticule of show_surface follows the map", "statement": "show_surface(surface, theta) draws the rendered image of the surface at angle theta (plus the phase of the surface when include_phase) and n+1 parallels and 2n meridians; every point of a parallel/meridian is drawn where the point of that latitude and longitude of the map is seen, and is hidden when it is on the far side, for any inclination, obliquity and angle. As written the image always has radius 1 whereas the graticule has the radius of the body, so the two agree only for a radius of 1.", "quantifier": "all surfaces, angles, inclinations, obliquities, numbers of lines, radii", "why_tests_cant": "an image comparison looks at a few orientations only", "anchors": ["src/jaxoplanet/starry/visualization.py:show_surface", "src/jaxoplanet/starry/utils.py:graticule", "src/jaxoplanet/starry/utils.py:lon_lat_lines", "src/jaxoplanet/starry/utils.py:rotation", "src/jaxoplanet/starry/utils.py:plot_lines"]}
{"id": "C80", "title": "higher_precision=True only changes rounding", "statement": "The multiprecision A1 and A2_inv matrices equal the ordinary ones entry by entry (factorials of negative integers counting as infinity, no infinite coefficient being left); the multiprecision A2, assembled column by column from small linear systems on closed subsets of the basis, always succeeds, whatever order Python lists a set in, and is exactly the inverse of A2_inv; hence surface_light_curve and surface_radial_velocity with higher_precision=True return the same values as without it; the shared matrix cache never returns another matrix, whatever calls came before.", "quantifier": "all degrees, surfaces, occultor positions, set iteration orders and histories of calls", "why_tests_cant": "unbounded degree; iteration order of sets; the tests compare a few degrees", "anchors": ["src/jaxoplanet/starry/multiprecision/basis.py:A1", "src/jaxoplanet/starry/multiprecision/basis.py:_A2", "src/jaxoplanet/starry/multiprecision/basis.py:A2_inv", "src/jaxoplanet/starry/multiprecision/utils.py:CACHED_MATRICES", "src/jaxoplanet/starry/light_curves.py:surface_light_curve", "src/jaxoplanet/starry/doppler.py:surface_radial_velocity"]}
{"id": "C81", "title": "Light curves converge as the quadrature order grows", "statement": "For every stellar model and configuration (but the concentric occultor of the star's own size): as order grows, with nodes and weights those of the Gauss-Legendre rule, the limb-darkened light curve converges to the visible fraction of the flux minus 1; in the starry solution vector the entries with square roots converge to the visible flux of their Green's function, and the polynomial ones, whose rule has min(order, 20) nodes, are within an explicit bound of it (1e-14 up to degree 5 for occultors no larger than the star); the light curve of a map converges to the visible flux up to that bound weighted by its Green's coefficients; the radial velocity of a map is the ratio of two numbers that converge in the same sense to the flux-weighted recession velocity of the visible part and to its flux. A Gauss-Legendre rule of every order exists.", "quantifier": "all limb-darkening laws, maps, configurations, orders and tolerances", "why_tests_cant": "a limit over all orders; no finite set of orders decides it", "anchors": ["src/jaxoplanet/core/limb_dark.py:light_curve", "src/jaxoplanet/core/limb_dark.py:p_integral", "src/jaxoplanet/starry/core/solution.py:solution_vector", "src/jaxoplanet/starry/core/solution.py:p_integral", "src/jaxoplanet/starry/light_curves.py:surface_light_curve"]}
{"id": "C82", "title": "The multiprecision reference solution vectors are exact", "statement": "For a partial occultation with nonzero impact parameter and radius, entry l^2+nu of the multiprecision sT is the visible flux of the corresponding Green's basis function; b = 0 or r = 0 raises ZeroDivisionError; outside the range of partial occultations sT still subtracts the area of the occultor (PI(1-r^2) instead of PI or 0). The limb-darkening vector gives the visible flux of every limb-darkened star for all b > 0, r > 0. get_sT returns what sT returns whatever was asked before.", "quantifier": "all degrees, impact parameters, radii, laws and call histories", "why_tests_cant": "unbounded degree and a continuum of configurations", "anchors": ["src/jaxoplanet/starry/multiprecision/solution.py:sT", "src/jaxoplanet/starry/multiprecision/solution.py:P", "src/jaxoplanet/starry/multiprecision/solution.py:q_numerical", "src/jaxoplanet/starry/multiprecision/solution.py:solution_limb_dark", "src/jaxoplanet/starry/multiprecision/solution.py:get_sT"]}
{"id": "C83", "title": "The light curve of a system is what its bodies leave visible of each other", "statement": "In the light curve of a SurfaceSystem the star's entry is, in units of its amplitude over its mean limb-darkening profile, the flux of the part of its disk that none of the bodies in front hides - provided no point of the star is hidden by two bodies at once - up to the quadrature errors of the partly hiding bodies; the entry of a body is 0 without a surface, otherwise its flux that the star, when in front, does not hide. When bodies overlap in front of the star the light behind both is subtracted twice, which can make the flux negative.", "quantifier": "all systems, surfaces, orbits, times and quadrature rules", "why_tests_cant": "a continuum of configurations of any number of bodies; surface integrals", "anchors": ["src/jaxoplanet/starry/light_curves.py:light_curve", "src/jaxoplanet/starry/system_observable.py:system_observable", "src/jaxoplanet/starry/light_curves.py:surface_light_curve"]}
{"id": "C84", "title": "The multiprecision rotations are the rotations of the map", "statement": "multiprecision.rotation.R(lmax, u, theta) returns for each degree l >= 1 the matrix that expands the harmonics of the sphere turned by theta about u in the harmonics of degree l, its entries below the working precision cut to 0 (about the z axis up to an extra tilt by the working precision); dot_rotation_matrix differs from the rotated coefficients by at most the working precision times the sum of the coefficients of that degree, and left_project approaches the double precision left_project as the working precision grows, provided y00 = 1 (y00 is always replaced by 1) and theta_z = 0 (otherwise TypeError); dot_rz turns by the opposite angle; get_R answers, after any history of calls, with what R returns for the rotation asked for, but at the working precision of the first such call.", "quantifier": "all axes and angles expressible in the code's Euler angles, all degrees and maps, all working precisions, all histories of get_R calls", "why_tests_cant": "the matrices, maps, angles and cache histories are infinitely many; tests compare a few of them with the double precision code", "anchors": ["src/jaxoplanet/starry/multiprecision/rotation.py:R", "src/jaxoplanet/starry/multiprecision/rotation.py:get_R", "src/jaxoplanet/starry/multiprecision/rotation.py:dot_rotation_matrix", "src/jaxoplanet/starry/multiprecision/rotation.py:left_project", "src/jaxoplanet/starry/multiprecision/rotation.py:dot_rz"]}
{"id": "C85", "title": "The multiprecision flux is the flux of the visible part", "statement": "multiprecision.flux.flux(ydeg, udeg, inc, obl)(b, r, y, phi, u) returns, for an occultor of radius r centred at (0, b) (either sign of b, not concentric) that hides a part of the disk: without a map exactly the visible fraction of the limb darkened light, with a map (y00 = 1) a value that approaches, as the working precision grows, pi over the limb darkened flux times the flux of the unhidden part of the rotated map times the limb darkening profile, where the map is seen at a point at most 2e-20 from where the core sees it (an angle of exactly 0 is replaced by 1e-20); with nothing hidden and udeg = 0 the flux of the whole map; 0 in total eclipse; AssertionError for wrong numbers of coefficients. It fails (with ZeroDivisionError, ValueError, AttributeError or NameError) for concentric occultors, for any unocculted limb darkened map or uniform disk, and for rotate=False with a map.", "quantifier": "all degrees, maps with y00 = 1, limb darkening coefficients with non-zero flux, phases, obliquities, inclinations, occultor radii and positions", "why_tests_cant": "maps, geometries and precisions are infinitely many; the tests use flux as the reference against which the double precision code is checked", "anchors": ["src/jaxoplanet/starry/multiprecision/flux.py:flux"]}
{"id": "C86", "title": "The one-step projection agrees with left_project", "statement": "fast_direct_left_project(ydeg, inc, obl, theta, theta_z, y) returns exactly the coefficients left_project returns, when an inclination is given (or no obliquity) and the cosine of half the angle of the total rotation is below 1 - 1e-5 - eps; otherwise y unchanged (so obliquities up to 1/125 rad of an edge-on map are ignored); with an obliquity and no inclination it turns the map the other way from left_project. It never raises and always returns (ydeg+1)^2 coefficients; rotate_flms gives the same with precomputed Wigner matrices.", "quantifier": "all degrees, angles (present or not), coefficient vectors and machine epsilons", "why_tests_cant": "the function is not covered by the test-suite, and agreement has to hold for every degree and every combination of angles, including the neighbourhood of the identity", "anchors": ["src/jaxoplanet/starry/core/rotation.py:fast_direct_left_project", "src/jaxoplanet/starry/core/rotation.py:left_project", "src/jaxoplanet/starry/core/s2fft_rotation.py:rotate_flms", "src/jaxoplanet/starry/utils.py:C"]}
{"id": "C87", "title": "The recursive rotation matrices are those of the rotation", "statement": "compute_rotation_matrices(ydeg, x, y, z, theta) gives one matrix per degree up to ydeg, and multiplying each block of a coefficient vector by its matrix rotates the map by theta about the axis (x, y, z), for any length of the axis; entry by entry the matrices are those of compute_rotation_matrices_s2fft. This holds whenever the rotation sends the pole exactly to a pole, or to a height at least 10 eps away from those of the poles; inside that window small rotations come out wrong, and the zero axis, which the code means to handle, gives NaN unless cos(theta) is within 10 eps of 1 or -1.", "quantifier": "all degrees, axes, angles, maps and machine epsilons up to 1/10", "why_tests_cant": "a three-term recursion on the degree with reflections and inversions of index ranges; tests compare a few degrees and angles", "anchors": ["src/jaxoplanet/starry/core/rotation.py:compute_rotation_matrices", "src/jaxoplanet/starry/core/rotation.py:rotar", "src/jaxoplanet/starry/core/rotation.py:dlmn"]}
{"id": "C88", "title": "The precision estimates report the true error", "statement": "multiprecision.precision.limb_dark_light_curve(udeg, r, order, b) returns exactly the absolute difference between the limb-darkened light curve and the true visible fraction of the flux, and starry_light_curve(ydeg, udeg, r, order, b) the absolute difference between the light curve of the map of ones and the true visible flux of that map, up to the working precision and a multiple of the angle 1e-20 by which the reference turns maps; for the default b (always a partial occultation) and every b != 0 that gives one. As the order grows the first goes to 0, the second to the bound of the 20-node rule for the polynomial entries. With an explicit b outside (|b| >= 1 + r) or b = 0 with r <= 1 limb_dark_light_curve fails", "quantifier": "every degree, number of limb darkening coefficients, radius ratio r > 0, impact parameter and quadrature order", "why_tests_cant": "a test compares a handful of degrees with a threshold; that the reported number is the error (and does not hide errors common to both computations) is a statement about the true integral over the visible part of the sphere", "anchors": ["src/jaxoplanet/starry/multiprecision/precision.py:starry_light_curve", "src/jaxoplanet/starry/multiprecision/precision.py:limb_dark_light_curve"]}
{"id": "C89", "title": "Transit and eclipse light curves are the visible flux of the orbit's bodies", "statement": "light_curves.limb_dark.light_curve(orbit, *u)(t) converges, as the order grows, to the fraction of the limb-darkened star's light that the body's disk at its sky position leaves, minus 1 (nothing is hidden when the body is behind); never above 0 or below -1 for profiles that are not negative. light_curves.emission.light_curve(system)(t): the star's entry converges to the fraction no body hides when no point is hidden twice (in general every body takes away all the light behind it, so two total eclipses give -1), each body's entry to amplitude times the fraction of its disk the star does not hide. In the middle of a transit of a Keplerian orbit (sin omega != -1) or TransitOrbit the depth is that of the requested impact parameter and radius ratio, and the light curve of a TransitOrbit is exactly symmetric about every transit", "quantifier": "every orbit, time, limb darkening, radius and number of bodies, with the one exception of the concentric occultor of the same size", "why_tests_cant": "end-to-end: orbit, sky projection, scaling by the radii and the quadrature must all agree for every configuration; tests compare to stored curves", "anchors": ["src/jaxoplanet/light_curves/limb_dark.py:light_curve", "src/jaxoplanet/light_curves/emission.py:light_curve", "src/jaxoplanet/proto.py:LightCurveOrbit"]}
{"id": "C90", "title": "Radial velocities of systems: the Rossiter-McLaughlin effect", "statement": "At every time of the array the star's entry of starry.doppler.radial_velocity is the velocity of the star alone plus the change that each body in front makes on its own plus the reflex motion due to the first body; while a single body is in front it converges, as order grows, to amplitude times the flux-weighted mean recession velocity of the part of the star that stays visible (up to the bound on the 20-node rule) plus that reflex motion. With two bodies in front of different parts of the star the sum of their separate changes is not the mean velocity of the visible part. The entry of a body is 0 without a surface, otherwise the mean velocity of the part of its surface that the star does not hide, without its orbital motion.", "quantifier": "all systems, surfaces, times, orders and tolerances", "why_tests_cant": "fluxes of all map and occultor configurations, and a limit over all orders", "anchors": ["src/jaxoplanet/starry/doppler.py:radial_velocity", "src/jaxoplanet/starry/doppler.py:surface_radial_velocity", "src/jaxoplanet/starry/system_observable.py:system_observable"]}
{"id": "C91", "title": "The methods of a System and its light curve are those of its bodies", "statement": "For every System with at least one body, position, relative_position, central_position, velocity, central_velocity, relative_velocity and radial_velocity, evaluated at a time or an array of times of any shape, return arrays of shape (number of bodies, *shape of the times) whose entry [i, idx] is the corresponding method of the i-th body at times[idx], whether the bodies could be stacked or are looped over; radius and central_radius have one entry per body; limb_dark_light_curve(system, u)(t) has one entry per body, each the light curve of that body alone. When some bodies give a parallax and others do not, the methods raise ValueError (their units differ); the light curve raises as soon as a body has a parallax or no radius; a System without bodies cannot be evaluated.", "quantifier": "all systems (any number of bodies, any mixture of circular/eccentric/massless bodies), all arrays of times, all solvers, all limb-darkening vectors and quadratures", "why_tests_cant": "the stacked and looped evaluation paths depend on which optional fields every body has; tests try a few combinations", "anchors": ["src/jaxoplanet/orbits/keplerian.py:System", "src/jaxoplanet/object_stack.py:ObjectStack.vmap", "src/jaxoplanet/light_curves/limb_dark.py:light_curve"]}
{"id": "C92", "title": "Gradients of the limb-darkened light curve are finite and correct", "statement": "jax.grad of core.limb_dark.light_curve with respect to the distance b, the radius ratio r and every coefficient u_k is a finite number for every configuration (contacts, tangencies, b = 0, r = 0 and total eclipses included), except for an occultor of exactly the star's size exactly in front of it (b = 0, |r| = 1) and a point on the limb (|b| = 1, r = 0), where it is not a number. Differentiating never changes the value. Outside of a transit, at external contact and in total eclipse (including its contacts) the gradient is exactly 0 in every direction. Wherever b and r are not 0, no contact happens exactly and no guard of the code (10 eps) is at its threshold, jvp along any differentiable path of (u, b, r) gives the derivative of the computed light curve along the path, so the gradients are its partial derivatives.", "quantifier": "all quadratures, numbers and values of coefficients (flux not 0), distances, radius ratios, tangents, machine epsilons", "why_tests_cant": "the guards (nested where, zero_safe_sqrt, sorting of the sides) exist to make every gradient finite at singular configurations, which are exactly the ones a finite sample of points misses; correctness of the derivative is a statement about limits", "anchors": ["src/jaxoplanet/core/limb_dark.py:light_curve", "src/jaxoplanet/core/limb_dark.py:solution_vector", "src/jaxoplanet/core/limb_dark.py:kappas", "src/jaxoplanet/core/limb_dark.py:p_integral", "src/jaxoplanet/utils.py:zero_safe_sqrt_jvp"]}
{"id": "C93", "title": "Gradients of transit light curves", "statement": "Differentiating light_curves.limb_dark.light_curve of a TransitOrbit (jax.jvp or jax.grad with respect to the time, the limb darkening and the orbit's period, speed, duration, transit time, impact parameter and radius ratio) does not change the value and gives finite numbers at every time, in or out of transit, at which the body is not exactly in line with the centre of the star (speed*dt = 0 and impact parameter 0) and the radius ratio is not 0. With an impact parameter of 0, the default, every gradient is not a number at the middle of every transit. The constructor's own derivatives are finite when |impact_param| < |1 + radius_ratio|; when |impact_param| >= |1 + radius_ratio| the light curve of an orbit given by its duration has no gradient at any time. Out of transit (|dt| >= duration/2) the gradient is exactly 0 in every direction. Away from the ends of the transit window, from half a period and from the exceptional points of the limb-darkened light curve's own gradient, jvp along any differentiable path of constructor arguments, coefficients and times is the derivative of the light curve along it; in particular the gradient with respect to time is the slope of the light curve.", "quantifier": "all orbits, constructor arguments, times, coefficients (flux not 0), quadratures, tangents, machine epsilons; all periods and transits", "why_tests_cant": "the singular times form a discrete set (middle of each transit) that sampled times miss, and derivative correctness is a statement about limits", "anchors": ["src/jaxoplanet/light_curves/limb_dark.py:light_curve", "src/jaxoplanet/orbits/transit.py:TransitOrbit", "src/jaxoplanet/core/limb_dark.py:light_curve"]}
{"id": "C94", "title": "Gradients of Keplerian orbits", "statement": "Differentiating orbits.keplerian (jax.jvp or jax.grad, through the solver's own rule) does not change the values and gives finite relative positions, positions and radial velocities at every time for every well formed orbit: period and total mass not 0 and 0 <= eccentricity < 1, 0 included. The constructor's derivatives are finite for physical arguments, except: with an eccentricity and an argument of periastron of exactly -90 degrees (sin_omega_peri = -1, cos_omega_peri = 0) neither the positions nor the light curves have a gradient at any time, and with an impact parameter that makes |cos i| = 1 the coordinate along the line of sight has none. Along any differentiable path of stellar mass and radius, body arguments and times the tangent is the derivative of the coordinates and of the radial velocity; in particular the tangent of relative_position for the time is the relative_velocity the package computes in closed form. Light curves of Keplerian orbits have finite gradients whenever the body is not exactly in line with the centre of the star, and then, away from the exceptional points of the limb-darkened light curve's own gradient, tangents equal to their derivatives; with an impact parameter of 0 every gradient is not a number at the time of transit.", "quantifier": "all bodies, orbits, times, parallaxes, semi-amplitudes, coefficients, tangents and differentiable paths of them; all exact Kepler solvers", "why_tests_cant": "the exceptional arguments (periastron at -90 degrees, mid transit with impact parameter 0) are isolated and derivative correctness is a statement about limits at every point of a continuum", "anchors": ["src/jaxoplanet/orbits/keplerian.py:OrbitalBody", "src/jaxoplanet/core/kepler.py:kepler", "src/jaxoplanet/light_curves/limb_dark.py:light_curve"]}
{"id": "C95", "title": "Gradients of starry solution vectors and occultation design vectors", "statement": "Differentiating starry.core.solution.solution_vector (jax.jvp or jax.grad with respect to the distance and the radius) does not change the values and gives finite numbers in every entry, at every degree > 0, for all distances and radii of any sign, contacts and total eclipses included, except at (|b|, |r|) = (0, 1) and (1, 0), where the first entry has no gradient. Where the occultor hides nothing (|b| >= 1 + |r|) or everything (|r| >= 1 + |b|) every tangent is exactly 0 (and so are the entries when everything is hidden). Away from contacts and from the thresholds of the guards the tangents are the derivatives along every differentiable path. The weights by which surface_light_curve and surface_radial_velocity integrate an occulted map are finite with finite tangents for all positions of the occultor except x = y = 0, where every one of them has no gradient even when the body is behind the star and hides nothing; they have tangents exactly 0 when nothing is hidden, and tangents equal to their derivatives away from contacts and from z = 0. Light curves of surfaces of degree 0 have gradients with respect to the position, the radius and the limb darkening that are finite exactly when (x, y) is not (0, 0), and that are their derivatives away from contacts.", "quantifier": "all degrees, distances, radii, positions, tangents, differentiable paths, quadrature rules, limb darkenings (flux not 0), machine epsilons", "why_tests_cant": "the guards exist for the singular configurations (exact contacts, aligned centres, a point occultor), isolated points which a finite sample misses; correctness of a derivative is a statement about limits at every point of a continuum", "anchors": ["src/jaxoplanet/starry/core/solution.py:solution_vector", "src/jaxoplanet/starry/core/solution.py:kappas", "src/jaxoplanet/starry/core/solution.py:p_integral", "src/jaxoplanet/starry/light_curves.py:surface_light_curve"]}
{"id": "C96", "title": "Gradients of light curves of spherical-harmonic maps", "statement": "Differentiating starry.light_curves.surface_light_curve does not change its result (an error stays the same error). Without an occultor, its derivatives with respect to the coefficients of the map, the limb darkening, the amplitude and the rotation phase are finite and are its derivatives along every differentiable path, at every point at which the limb-darkened disk has a non-zero flux. With an occultor and a map of degree at least 1, the derivatives with respect to those and to the position and the radius of the occultor are finite for all positions except x = y = 0, contacts and bodies behind the star included; at x = y = 0 there is no gradient at all, even when the body is behind the star and hides nothing. When nothing is hidden the gradient is the one without occultor: exactly zero with respect to the position and the radius, although the code rotates the map by the position angle of the body. Away from the limb, from contacts and from the thresholds of the guards the tangents are the derivatives along every differentiable path.", "quantifier": "all degrees, coefficients, inclinations, obliquities, limb darkenings (flux not 0), amplitudes, phases, positions, radii, tangents, differentiable paths, quadrature rules, machine epsilons", "why_tests_cant": "correctness of a derivative is a statement about limits at every point of a continuum; finite-difference tests sample a few points and avoid the singular ones, and that the position angle drops out of the gradient needs the invariance of the disk integral under rotations", "anchors": ["src/jaxoplanet/starry/light_curves.py:surface_light_curve", "src/jaxoplanet/starry/core/rotation.py:left_project", "src/jaxoplanet/starry/core/polynomials.py:Pijk", "src/jaxoplanet/starry/core/solution.py:solution_vector"]}
{"id": "C97", "title": "Gradients of radial velocities of spherical-harmonic maps", "statement": "Differentiating starry.doppler.surface_radial_velocity of a rigidly rotating surface does not change its result (an error, e.g. for a surface without period, stays the same error). Wherever the flux by which the code divides is not zero, its derivatives with respect to the coefficients of the map, the limb darkening, the amplitude, the phase, the period and the radius are finite and are its derivatives along every differentiable path without an occultor; when nothing is hidden that flux is the flux of the visible disk. With an occultor, the derivatives with respect to those and to the position and the radius of the occultor are finite for all positions except x = y = 0, contacts and bodies behind the star included; at x = y = 0 there is no gradient at all for a surface with a period, even when the body is behind the star and hides nothing. When nothing is hidden and the visible flux is not zero, the gradient is the one without occultor: exactly zero with respect to the position and the radius, although the code rotates the map and the velocity field by the position angle of the body. Away from the limb, from contacts and from the thresholds of the guards the tangents are the derivatives along every differentiable path.", "quantifier": "all degrees, coefficients, inclinations, obliquities, limb darkenings (flux not 0), amplitudes, phases, periods (not 0), radii, positions, tangents, differentiable paths, quadrature rules, machine epsilons", "why_tests_cant": "correctness of a derivative is a statement about limits at every point of a continuum; finite-difference tests sample a few points and avoid the singular ones, and that the position angle drops out of the gradient needs the invariance of two disk integrals under rotations", "anchors": ["src/jaxoplanet/starry/doppler.py:surface_radial_velocity", "src/jaxoplanet/starry/doppler.py:rv_map_expansion", "src/jaxoplanet/starry/core/rotation.py:left_project", "src/jaxoplanet/starry/core/rotation.py:dot_rz", "src/jaxoplanet/starry/core/solution.py:solution_vector"]}
{"id": "C98", "title": "Gradients of light curves of systems of surfaces", "statement": "Differentiating starry.light_curves.light_curve of a SurfaceSystem changes no entry of its result (an error, e.g. for a body without radius, stays the same error). For any number of bodies on Keplerian orbits (exact solver), with or without surfaces, with maps of any degree, the derivatives with respect to the time, the parameters of the orbits, the radii and the coefficients, limb darkenings, amplitudes, periods and phases of the surfaces are finite unless a body is exactly in front of or behind the centre of the star, contacts and eclipses of the bodies included. Exactly: the flux of the star has a gradient unless some body is in line with its centre (so it is undefined at the middle of every transit with impact parameter 0), and the flux of a body has one unless the body has a surface and is itself in line. Away from contacts, from the plane of the sky, from the limb and from the thresholds of the guards, the tangents are the derivatives of all entries along every differentiable path of systems and times; they include the correction that subtracts the unocculted flux once per additional body. When nothing of a star of degree at least 1 is hidden, contacts and bodies behind it included, its flux and its gradient are those of the star alone, whatever the number of bodies.", "quantifier": "all numbers of bodies, orbits with eccentricity below 1, surfaces or none, degrees, times, tangents, differentiable paths, quadrature rules, machine epsilons", "why_tests_cant": "correctness of a derivative is a statement about limits at every point of a continuum, here through the composition of orbits, frames and fluxes for any number of bodies; tests differentiate one or two systems at a few times", "anchors": ["src/jaxoplanet/starry/system_observable.py:system_observable", "src/jaxoplanet/starry/light_curves.py:light_curve", "src/jaxoplanet/starry/surface.py:Surface.rotational_phase", "src/jaxoplanet/orbits/keplerian.py:OrbitalBody.relative_position"]}
{"id": "C99", "title": "Gradients of radial velocities of systems of surfaces", "statement": "Differentiating starry.doppler.radial_velocity of a SurfaceSystem of rigidly rotating surfaces at an array of times changes no entry of its result (an error, e.g. for a system without bodies or a surface without period, stays the same error). For any number of bodies on Keplerian orbits (exact solver), with or without surfaces, the derivatives with respect to the times, the parameters of the orbits (including the reflex velocity of the star), the radii and the coefficients, limb darkenings, amplitudes, periods and phases of the surfaces are finite unless a body is exactly in front of or behind the centre of the star or the flux by which a velocity is divided is zero. Exactly, at every time: the velocity of the star has a gradient unless some body is in line with its centre, in front or behind (so it is undefined at the middle of every transit with impact parameter 0), and the velocity of a body has one unless the body has a surface and is itself in line. Away from contacts, from the plane of the sky, from the limb and from the thresholds of the guards, the tangents are the derivatives of all entries along every differentiable path of systems and times. When nothing of the star is hidden and its visible flux is not zero, its velocity and the gradient are those of the star alone plus the reflex velocity due to the first body.", "quantifier": "all numbers of bodies, orbits with eccentricity below 1, surfaces or none, degrees, arrays of times, tangents, differentiable paths, quadrature rules, machine epsilons", "why_tests_cant": "correctness of a derivative is a statement about limits at every point of a continuum, here through the composition of orbits, frames, fluxes and velocity-weighted fluxes for any number of bodies; no test differentiates the radial velocity of a system", "anchors": ["src/jaxoplanet/starry/doppler.py:radial_velocity", "src/jaxoplanet/starry/system_observable.py:system_observable", "src/jaxoplanet/starry/doppler.py:surface_radial_velocity", "src/jaxoplanet/orbits/keplerian.py:OrbitalBody.radial_velocity"]}
