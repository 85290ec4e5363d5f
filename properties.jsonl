{"id": "C01", "title": "Tracking always ends", "statement": "Tracking any list of bunches through an element with positive constant time steps, any numerical fields with positive update periods and any positive number of outputs finishes: the tracking loop leaves after finitely many events, never spins forever. With adaptive ('auto') steps the same holds as long as the step function never returns less than some positive bound.", "quantifier": "all element lengths, all lists of bunches, all positive bunch steps, all field periods, all output counts, all adaptive step functions bounded away from zero", "why_tests_cant": "Termination is a statement about every combination of incommensurable periods; a test exercises one combination and a hang is only visible as a timeout.", "anchors": ["wake_t/tracking/tracker.py:Tracker.do_tracking", "wake_t/tracking/tracker.py:Tracker.evolve_bunch"]}
{"id": "C02", "title": "Every bunch leaves the element having been pushed over exactly the element length", "statement": "When outputs are requested with the default synchronised diagnostics, each bunch has been advanced by a total time of exactly length/c when track() returns, whatever its own time step (even one longer than the element). Without synchronised diagnostics this holds for every bunch whose first step fits in the element.", "quantifier": "all numbers of bunches, all positive steps, all numbers of outputs, all coexisting field periods", "why_tests_cant": "The last step is clipped on the fly by a rule that interacts with the other objects' events; only a proof over every schedule shows no residue is left.", "anchors": ["wake_t/tracking/tracker.py:Tracker.do_tracking", "wake_t/tracking/tracker.py:Tracker.evolve_bunch", "wake_t/beamline_elements/field_element.py:FieldElement.track"]}
{"id": "C03", "title": "The pushes of a bunch tile the tracking interval", "statement": "For each bunch, the sequence of pushes performed by the tracker starts at time 0, every push starts exactly where the previous one ended, no push has negative length, none is longer than the step requested for that bunch, and none ends after the end of the element.", "quantifier": "all schedules generated by any bunches, fields and diagnostics", "why_tests_cant": "Requires looking at every push of every possible interleaving.", "anchors": ["wake_t/tracking/tracker.py:Tracker.do_tracking", "wake_t/tracking/tracker.py:Tracker.evolve_bunch"]}
{"id": "C04", "title": "Number and times of the outputs", "statement": "Asking for n outputs yields, for every bunch, exactly n+1 copies: one before any push and then one at each time k*t_final/n, k=1..n, in that order, the last one at the exit of the element.", "quantifier": "all n>=1, all bunches, steps and fields", "why_tests_cant": "The count depends on a floating comparison with t_final at the end of an open-ended loop; a test checks one n.", "anchors": ["wake_t/tracking/tracker.py:Tracker.__init__", "wake_t/tracking/tracker.py:Tracker.do_tracking", "wake_t/tracking/tracker.py:Tracker.generate_diagnostics"]}
{"id": "C05", "title": "Outputs are synchronous", "statement": "With the default setting every bunch has been pushed exactly to the output time whenever an output is produced, so all copies of one output belong to the same instant.", "quantifier": "all schedules, every output of every run", "why_tests_cant": "Quantifies over each output of each possible interleaving.", "anchors": ["wake_t/tracking/tracker.py:Tracker.do_tracking"]}
{"id": "C06", "title": "Events happen in time order and fields see up-to-date bunches", "statement": "The instants of successive events (bunch pushes, field updates, outputs) never decrease and never exceed the end of the element; at equal instants bunches go first, then fields, then outputs. Hence whenever a field is updated at time t, every unfinished bunch has been pushed as far as its steps allow without overtaking t: bunch time <= t < bunch time + its next step.", "quantifier": "all event schedules", "why_tests_cant": "Causality must hold for all interleavings and ties.", "anchors": ["wake_t/tracking/tracker.py:Tracker.do_tracking"]}
{"id": "C07", "title": "Field update instants", "statement": "A numerical field with update period d is updated once before anything is pushed and then exactly at the instants d, 2d, 3d, ... not beyond the end of the element, and at no other time, independently of bunches and outputs.", "quantifier": "all positive periods, all element lengths, all other objects", "why_tests_cant": "Needs the complete list of update instants for arbitrary real periods.", "anchors": ["wake_t/tracking/tracker.py:Tracker.do_tracking", "wake_t/fields/numerical_field.py:NumericalField.update"]}
{"id": "C08", "title": "Even field updates", "statement": "When even updates are forced, the adjusted update period divides the tracking time exactly, is never longer than the requested one, uses the smallest possible number of updates, and re-adjusting for the same length changes nothing; when not forced the period is untouched.", "quantifier": "all tracking times and periods > 0", "why_tests_cant": "Arithmetic law over all reals involving a ceiling.", "anchors": ["wake_t/fields/numerical_field.py:NumericalField.adjust_dt"]}
{"id": "C09", "title": "Single-precision comparisons only cost single precision", "statement": "The event loop compares times after rounding them to float32. For any monotone rounding, the loop still processes events in rounded time order and when it stops every bunch's time rounds to a value not below the rounded end time of its last allowed step; the stronger claim that every bunch is then exactly at the end of the element is false in general.", "quantifier": "all monotone rounding functions, all schedules", "why_tests_cant": "The counterexample needs steps commensurate with float32 spacing and is not hit by ordinary tests.", "anchors": ["wake_t/tracking/tracker.py:Tracker.do_tracking", "wake_t/tracking/tracker.py:Tracker.evolve_bunch"]}
{"id": "C10", "title": "Any output count is accepted", "statement": "Tracking with a number of outputs equal to zero behaves like tracking with outputs except that nothing is stored.", "quantifier": "all bunch lists and fields with zero outputs", "why_tests_cant": "The claim is about a whole class of configurations of which the code's tests use only the default.", "anchors": ["wake_t/tracking/tracker.py:Tracker.__init__", "wake_t/tracking/tracker.py:Tracker.generate_diagnostics"]}
{"id": "C11", "title": "Per-bunch time steps", "statement": "The dt_bunch argument is either one value, applied to every bunch, or a list with one value per bunch; any list of another length is rejected with ValueError before any bunch is touched. A single bunch given directly is treated as a one-element list and its result is unwrapped: the caller gets the list of its copies.", "quantifier": "all bunch lists and dt arguments", "why_tests_cant": "Decision logic over all list lengths, including that nothing happens on the error path.", "anchors": ["wake_t/beamline_elements/field_element.py:FieldElement.track"]}
{"id": "C12", "title": "A beamline is the concatenation of its elements", "statement": "Beamline.track applies the elements in order, each to the state left by the previous one, and returns the concatenation of their outputs; tracking through beamline A followed by beamline B equals tracking through A+B.", "quantifier": "all lists of elements and all bunches", "why_tests_cant": "Law over arbitrary element lists.", "anchors": ["wake_t/beamline_elements/beamline.py:Beamline.track"]}
{"id": "C13", "title": "Longitudinal positions of the openPMD output", "statement": "The time written in each openPMD iteration equals the local tracking time plus the total length/c of all elements already tracked with the same diagnostics; iteration numbers are 0,1,2,... without gaps; two species with the same name are rejected with ValueError before anything is written.", "quantifier": "all sequences of elements and outputs", "why_tests_cant": "History-dependent counters over arbitrary call sequences.", "anchors": ["wake_t/diagnostics/openpmd_diag.py:OpenPMDDiagnostics", "wake_t/tracking/tracker.py:Tracker.do_tracking"]}
{"id": "C14", "title": "Propagation distance bookkeeping and delayed injection", "statement": "After any sequence of successful pushes the bunch's propagation distance has grown by exactly c times the sum of the steps; an unknown pusher name raises ValueError and leaves the bunch unchanged. While every particle is still before z_injection, pushing the bunch is exactly a free drift whatever the fields.", "quantifier": "all push sequences, fields and particle distributions", "why_tests_cant": "Property of histories; also of arbitrary fields.", "anchors": ["wake_t/particles/particle_bunch.py:ParticleBunch.evolve"]}
{"id": "C15", "title": "Copies are faithful", "statement": "bunch.copy() returns a bunch with the same particles, weights, species, name, propagation distance and reference trajectory, and further operations on either leave the other unchanged. (Finding: tags, flight time and injection position are not carried over.)", "quantifier": "all bunches, all later operations", "why_tests_cant": "Must hold for every attribute combination and every later mutation.", "anchors": ["wake_t/particles/particle_bunch.py:ParticleBunch.copy"]}
{"id": "C16", "title": "Phase-space matrix round trips", "statement": "Writing back the matrix read from a bunch leaves the bunch unchanged: get/set_bunch_matrix for every bunch with non-zero species charge and non-negative weights; set_phase_space_from_matrix stores the six rows in the documented coordinate order. The 'alternative' 6D matrix does not round trip in general.", "quantifier": "all bunches", "why_tests_cant": "Round-trip law for all particle data, with a sign condition a test would not isolate.", "anchors": ["wake_t/particles/particle_bunch.py:ParticleBunch.get_bunch_matrix", "wake_t/particles/particle_bunch.py:ParticleBunch.set_bunch_matrix", "wake_t/particles/particle_bunch.py:ParticleBunch.get_alternative_6D_matrix", "wake_t/particles/particle_bunch.py:ParticleBunch.set_phase_space_from_alternative_matrix"]}
{"id": "C17", "title": "Charge view of the weights", "statement": "Reading q gives weight times species charge; assigning q makes the weights non-negative and reading it back returns the assigned charges exactly when they have the sign of the species charge, otherwise their negatives.", "quantifier": "all charges and species charges", "why_tests_cant": "Sign corner cases over all reals.", "anchors": ["wake_t/particles/particle_bunch.py:ParticleBunch.q"]}
{"id": "C18", "title": "Repositioning", "statement": "reposition_xi shifts all particles rigidly so that the charge-weighted mean xi equals the requested value, leaves every other coordinate untouched and is idempotent.", "quantifier": "all bunches with non-zero total charge, all targets", "why_tests_cant": "Algebraic law for all distributions.", "anchors": ["wake_t/particles/particle_bunch.py:ParticleBunch.reposition_xi"]}
{"id": "C19", "title": "Boris pusher: magnetic fields do no work", "statement": "Pushing with zero electric field and any magnetic field leaves the modulus of every particle's momentum exactly unchanged.", "quantifier": "all particles, magnetic fields, step sizes (also large ones)", "why_tests_cant": "Exact conservation law over all reals.", "anchors": ["wake_t/particles/push/boris_pusher.py"]}
{"id": "C20", "title": "Boris pusher: free drift", "statement": "With no fields momentum is unchanged and the particle moves in a straight line: x by c*px/gamma*dt, y likewise, and xi by c*(pz/gamma - 1)*dt; n steps of dt equal one step of n*dt.", "quantifier": "all particles, all steps", "why_tests_cant": "Exact identity for every particle and number of steps.", "anchors": ["wake_t/particles/push/boris_pusher.py"]}
{"id": "C21", "title": "Boris pusher: time reversal", "statement": "Reversing the sign of dt undoes a push exactly when the field depends on position only; equivalently the push is injective on phase space.", "quantifier": "all static fields, particles, steps", "why_tests_cant": "Universal identity.", "anchors": ["wake_t/particles/push/boris_pusher.py"]}
{"id": "C22", "title": "Boris pusher: electric kick", "statement": "With zero magnetic field the momentum changes by exactly q/(m c)*E*dt with E taken at the half-step position and time.", "quantifier": "all particles and electric fields", "why_tests_cant": "Universal identity.", "anchors": ["wake_t/particles/push/boris_pusher.py"]}
{"id": "C23", "title": "RK4 pusher is the classical Runge-Kutta method on the Lorentz force equations", "statement": "The rk4 pusher evaluates the equations of motion at t, t+dt/2, t+dt/2 and t+dt with the standard intermediate states and combines them with weights 1/6, 1/3, 1/3, 1/6; with zero fields it is the exact free drift.", "quantifier": "all fields, particles, steps", "why_tests_cant": "Equality of two functions on all inputs.", "anchors": ["wake_t/particles/push/runge_kutta_4.py"]}
{"id": "C24", "title": "Particles do not influence one another in a push", "statement": "The pushed state of a particle depends only on its own coordinates: pushing a permuted or sub-selected bunch gives the permuted or sub-selected result (external fields).", "quantifier": "all bunches, permutations and selections", "why_tests_cant": "Naturality law over all bunches.", "anchors": ["wake_t/particles/push/boris_pusher.py", "wake_t/particles/push/runge_kutta_4.py", "wake_t/fields/gather.py:gather_fields"]}
{"id": "C25", "title": "Total field seen by particles is the sum of all fields", "statement": "The fields gathered at the particles equal the sum of the individual fields, independently of what the work arrays contained before and of the order of the field list. (Finding: the simplified blowout wakefields assign instead of adding, so anything listed before them is lost.)", "quantifier": "all field lists, particle positions and stale array contents", "why_tests_cant": "Superposition and order independence over all lists.", "anchors": ["wake_t/fields/gather.py:gather_fields", "wake_t/fields/analytical_field.py:AnalyticalField", "wake_t/physics_models/plasma_wakefields/simple_blowout.py", "wake_t/physics_models/plasma_wakefields/custom_blowout.py", "wake_t/physics_models/plasma_wakefields/focusing_blowout.py", "wake_t/physics_models/em_fields/quadrupole.py", "wake_t/physics_models/em_fields/linear_b_theta.py"]}
{"id": "C26", "title": "Grid fields at particle positions", "statement": "The value gathered from an r-z grid at a particle inside the grid is the bilinear interpolation of the four surrounding nodes: exact for fields linear in xi and r, equal to the node value on a node, between the smallest and largest node value, continuous across cells and only ever reading nodes inside the allocated array; particles outside the grid get exactly zero. On axis transverse fields vanish.", "quantifier": "all grids, node values and particle positions", "why_tests_cant": "Index-bound and exactness claims over all real positions and grid sizes.", "anchors": ["wake_t/particles/interpolation.py"]}
{"id": "C27", "title": "Laser envelope regridding", "statement": "Interpolating an r-z array to new grid points reproduces functions that are linear in z and r exactly and gives back the same array when the new grid is the old one.", "quantifier": "all grids and arrays", "why_tests_cant": "Universal over grid sizes and values, including the clamped edges.", "anchors": ["wake_t/fields/interpolation.py:interpolate_rz_field"]}
{"id": "C28", "title": "Deposition conserves charge", "statement": "The sum over the whole grid after depositing equals the sum before plus the total charge of the particles inside the domain, for linear and cubic shapes, with and without the Ruyten correction.", "quantifier": "all particle lists, positions, grids (sizes >= 3)", "why_tests_cant": "Sum over all grid nodes for all real positions.", "anchors": ["wake_t/particles/deposition.py", "wake_t/physics_models/plasma_wakefields/qs_rz_baxevanis/deposition.py"]}
{"id": "C29", "title": "Deposition stays in the allocated array and off the guard cells", "statement": "Every index written lies within the allocated (n+4)-sized array for every in-domain particle, out-of-domain particles write nothing, and no charge is left in the guard cells. (Finding: with the linear shape the longitudinal edge test uses the radial cell, so charge leaks to the guard cell.)", "quantifier": "all particle positions, grid sizes", "why_tests_cant": "Memory safety: an out-of-bounds write in compiled code does not raise.", "anchors": ["wake_t/particles/deposition.py", "wake_t/physics_models/plasma_wakefields/qs_rz_baxevanis/deposition.py"]}
{"id": "C30", "title": "Deposition order does not matter and is additive", "statement": "Depositing a list of particles in any order gives the same array, and depositing a concatenation equals depositing one part after the other; scaling all charges scales the deposit.", "quantifier": "all particle lists and permutations", "why_tests_cant": "Permutation law.", "anchors": ["wake_t/particles/deposition.py"]}
{"id": "C31", "title": "Deposition preserves the centre of charge", "statement": "Away from the grid edges the deposited charge has the first moment of the particle (its longitudinal position), for both shapes. (Finding: fails for the linear shape when the radial cell index exceeds the number of longitudinal cells.)", "quantifier": "all interior positions, all grids", "why_tests_cant": "Moment identity for every real position.", "anchors": ["wake_t/particles/deposition.py", "wake_t/physics_models/plasma_wakefields/qs_rz_baxevanis/deposition.py"]}
{"id": "C32", "title": "Tridiagonal solver solves the system", "statement": "The tridiagonal solver used by the laser envelope solver returns the solution of the linear system it is given. (Finding: the last forward-elimination step reads the coefficients of the previous row, so only the first n-1 equations are satisfied in general.)", "quantifier": "all sizes and coefficients with non-vanishing pivots", "why_tests_cant": "Universal over sizes and coefficients.", "anchors": ["wake_t/physics_models/laser/tdma.py:TDMA"]}
{"id": "C33", "title": "Laser pulse life cycle", "statement": "A pulse refuses to be initialised before its grid is set; its envelope is initialised once and only once; the first step after (re)setting the time step uses the non-centred scheme and all later ones the centred scheme; setting identical parameters again changes nothing; n substeps per update are performed. (Finding: changing only some grid parameters is silently accepted.)", "quantifier": "all call histories", "why_tests_cant": "History property.", "anchors": ["wake_t/physics_models/laser/laser_pulse.py:LaserPulse"]}
{"id": "C34", "title": "Sum of laser pulses", "statement": "Adding pulses requires equal wavelengths (ValueError otherwise) and the envelope of the sum is the sum of the envelopes, independent of the grouping. (Finding: the polarisation of the sum is always linear.)", "quantifier": "all pulses and groupings", "why_tests_cant": "Algebraic law over expression trees.", "anchors": ["wake_t/physics_models/laser/laser_pulse.py:SummedPulse"]}
{"id": "C35", "title": "Envelope time levels", "statement": "One envelope step turns the pair (previous, current) into (current, new): afterwards the stored previous envelope is exactly the former current one at every grid point.", "quantifier": "all grid sizes and envelopes", "why_tests_cant": "In-place rolling update over all grid sizes; aliasing mistakes are size dependent.", "anchors": ["wake_t/physics_models/laser/envelope_solver.py", "wake_t/physics_models/laser/envelope_solver_non_centered.py"]}
{"id": "C36", "title": "Phase unwrapping", "statement": "The unwrapped phase differs from the wrapped one by integer multiples of the period at every point, keeps the first value and has no jump larger than half a period.", "quantifier": "all phase arrays and periods", "why_tests_cant": "Universal over arrays.", "anchors": ["wake_t/physics_models/laser/utils.py:unwrap"]}
{"id": "C37", "title": "Transfer matrices compose", "statement": "The first-order matrix at z=0 is the identity, and the matrix over z1+z2 is the product of those over z1 and z2 for the same element, in the focusing, defocusing, drift and dipole regimes; its determinant in each transverse plane is 1.", "quantifier": "all z1, z2, lengths, angles, gradients and energies", "why_tests_cant": "Trigonometric/hyperbolic identities over all reals and regimes.", "anchors": ["wake_t/physics_models/beam_optics/transfer_matrices.py:first_order_matrix"]}
{"id": "C38", "title": "Outputs of transfer-matrix elements", "statement": "Tracking through a transfer-matrix element with n outputs returns n copies (n+1 with the initial one), the last one at the end of the element and equal to the final state of the input bunch. (Finding: with the initial copy requested and no number of outputs, the bunch is not advanced.)", "quantifier": "all output counts, with and without CSR", "why_tests_cant": "Index arithmetic over all counts.", "anchors": ["wake_t/beamline_elements/tm_elements.py:TMElement.track", "wake_t/beamline_elements/tm_elements.py:TMElement._determine_steps"]}
{"id": "C39", "title": "Elements are reusable", "statement": "Tracking a bunch through an element gives the same result whether or not the element has been used before. (Finding: transfer-matrix elements keep the reference energy of the first bunch and plasma elements keep the time of the previous run.)", "quantifier": "all histories of use", "why_tests_cant": "History independence.", "anchors": ["wake_t/beamline_elements/tm_elements.py:TMElement.track", "wake_t/fields/numerical_field.py:NumericalField.update"]}
{"id": "C40", "title": "Plasma ramps", "statement": "Each built-in ramp profile equals the top density at the plateau end, the requested density at the requested position, is monotone in between and positive; an up-ramp is the exact mirror image of a down-ramp; an unknown profile name raises ValueError.", "quantifier": "all lengths, densities, positions and decay lengths", "why_tests_cant": "Analytical facts over all reals.", "anchors": ["wake_t/beamline_elements/plasma_ramp.py"]}
{"id": "C41", "title": "Plasma stage configuration", "statement": "The fields seen by the bunches in a plasma stage are exactly the selected wakefield model (if any) followed by the external fields; the density profile is the given function or the given float everywhere; unsupported density types and model names raise ValueError.", "quantifier": "all configurations", "why_tests_cant": "Decision logic over all combinations.", "anchors": ["wake_t/beamline_elements/plasma_stage.py:PlasmaStage", "wake_t/beamline_elements/active_plasma_lens.py:ActivePlasmaLens"]}
{"id": "C42", "title": "Plasma electrons stay on their mass shell", "statement": "After each slice update of the quasi-static plasma every electron satisfies gamma^2 = 1 + pr^2 + a^2 + pz^2, gamma - pz = 1 + psi, hence 1 - pz/gamma > 0 and gamma > 0, so the deposited density is finite; electrons exceeding max_gamma are put at rest.", "quantifier": "all particle states with psi > -1", "why_tests_cant": "Identity over all reals used as a divisor.", "anchors": ["wake_t/physics_models/plasma_wakefields/qs_rz_baxevanis/solver.py:update_gamma_and_pz", "wake_t/physics_models/plasma_wakefields/qs_rz_baxevanis/solver.py:calculate_and_deposit_plasma_column"]}
{"id": "C43", "title": "Plasma electrons never have negative radius", "statement": "After every push (rk4 or ab5) all radii are non-negative, and reflecting a particle at the axis flips its momentum and stored derivatives consistently, so that a reflected trajectory continues as the mirror image of the unreflected one.", "quantifier": "all states, all steps", "why_tests_cant": "Invariant over histories of crossings.", "anchors": ["wake_t/physics_models/plasma_wakefields/qs_rz_baxevanis/plasma_push/ab5.py", "wake_t/physics_models/plasma_wakefields/qs_rz_baxevanis/plasma_push/rk4.py"]}
{"id": "C44", "title": "Adams-Bashforth push is fifth order", "statement": "With derivatives sampled from any polynomial of degree up to 4 the ab5 push advances the variable by the exact integral over the step.", "quantifier": "all quartic derivative histories and steps", "why_tests_cant": "Order conditions over all polynomials.", "anchors": ["wake_t/physics_models/plasma_wakefields/qs_rz_baxevanis/plasma_push/ab5.py:apply_ab5"]}
{"id": "C45", "title": "Wakefield potential on the grid", "statement": "The potential stored at each grid radius uses exactly the charge of the plasma particles with smaller radius (whatever the order in which particles are stored) and vanishes at the outermost radius of plasma and box; it is continuous in r across particles and across the plasma edge.", "quantifier": "all particle sets, permutations and grids", "why_tests_cant": "Search loop with carried index over all sorted sets.", "anchors": ["wake_t/physics_models/plasma_wakefields/qs_rz_baxevanis/psi_and_derivatives.py"]}
{"id": "C46", "title": "Azimuthal magnetic field solves the matching conditions", "statement": "The coefficients of the piecewise plasma magnetic field computed by the axis/edge recursions satisfy the jump conditions at every particle and the boundary condition at the outermost particle.", "quantifier": "all particle sets with non-vanishing denominators", "why_tests_cant": "Linear system of arbitrary size.", "anchors": ["wake_t/physics_models/plasma_wakefields/qs_rz_baxevanis/b_theta.py"]}
{"id": "C47", "title": "Initial plasma column", "statement": "The plasma column is uniformly spaced, cell centred, starts in mass balance with the ion background: the particle charges sum to the integral of the density up to the plasma radius (uniform plasma) and all electrons start at rest.", "quantifier": "all radii, ppc and resolutions", "why_tests_cant": "Sums of arbitrary length.", "anchors": ["wake_t/physics_models/plasma_wakefields/qs_rz_baxevanis/plasma_particles.py"]}
{"id": "C48", "title": "Field of the beam inside the plasma", "statement": "The beam's azimuthal field on the grid is linear in the beam charge, independent of the order of bunches, and outside all beam charge equals enclosed charge over radius.", "quantifier": "all charge distributions and grids", "why_tests_cant": "Cumulative-sum identity for all sizes.", "anchors": ["wake_t/physics_models/plasma_wakefields/qs_rz_baxevanis/solver.py:calculate_beam_source"]}
{"id": "C49", "title": "CSR steps divide the element", "statement": "The CSR calculation step assigned to an element is never longer than requested and fits an integer number of times between outputs and in the element; the trajectory table is increasing in s. After clearing, nothing remembered from previously tracked elements influences the next calculation. (Finding: the step list survives clearing.)", "quantifier": "all lengths, step sizes, histories", "why_tests_cant": "Arithmetic with ceilings and history property.", "anchors": ["wake_t/physics_models/collective_effects/csr.py:CSRCalculator"]}
{"id": "C50", "title": "Generated bunches carry the requested charge", "statement": "Every bunch generator distributes exactly the requested total charge over the requested number of particles with equal non-negative weights.", "quantifier": "all charges, particle numbers, species charges", "why_tests_cant": "Universal arithmetic identity.", "anchors": ["wake_t/utilities/bunch_generation.py"]}
{"id": "C51", "title": "Twiss/size parametrisations agree", "statement": "Generating from sizes is the same as generating from the Twiss parameters that have these sizes, and the beam-size <-> beta conversion is invertible.", "quantifier": "all positive emittances, energies, sizes", "why_tests_cant": "Universal arithmetic identity.", "anchors": ["wake_t/utilities/bunch_generation.py"]}
{"id": "C52", "title": "Ocelot coordinate conversion round trips", "statement": "Converting to the Ocelot matrix and back is the identity for forward-moving particles.", "quantifier": "all particles with pz>=0 and reference energies", "why_tests_cant": "Universal algebraic identity with square roots.", "anchors": ["wake_t/utilities/bunch_manipulation.py"]}
{"id": "C53", "title": "Rotations", "statement": "The x-z rotation used to follow the reference trajectory preserves lengths, and rotating by theta then -theta is the identity; rotations compose additively.", "quantifier": "all angles and vectors", "why_tests_cant": "Trigonometric identity over all reals.", "anchors": ["wake_t/utilities/bunch_manipulation.py:rotation_matrix_xz"]}
{"id": "C54", "title": "Selecting a species from a file", "statement": "Reading a bunch from an openPMD file without naming the species succeeds exactly when the file holds exactly one species and otherwise raises ValueError; a saved and re-read bunch has the same particles up to the documented recentring.", "quantifier": "all files and species sets", "why_tests_cant": "Decision logic and round trip over all contents.", "anchors": ["wake_t/utilities/bunch_generation.py:get_from_file", "wake_t/utilities/bunch_saving.py:save_bunch_to_file"]}
{"id": "C55", "title": "Sign and shape of the focusing elements", "statement": "A field quadrupole of gradient k exerts decoupled linear forces of opposite sign in x and y; k>0 focuses electrons in x and defocuses them in y. The active plasma lens has a purely azimuthal field growing linearly with r; a positive strength focuses electrons equally in both planes.", "quantifier": "all gradients, species with negative charge, forward moving particles", "why_tests_cant": "signs must hold for all particle positions, momenta and strengths", "anchors": ["wake_t/physics_models/em_fields/quadrupole.py:QuadrupoleField", "wake_t/physics_models/em_fields/linear_b_theta.py:LinearBThetaField", "wake_t/beamline_elements/active_plasma_lens.py:ActivePlasmaLens", "wake_t/beamline_elements/field_quadrupole.py:FieldQuadrupole"]}
{"id": "C56", "title": "Simplified blowout wakefields", "statement": "The focusing_blowout field is that of an ion column of the local density at each particle, E_r = n e r/(2 eps0); custom_blowout has the requested accelerating field and slope at xi_fields at time 0 and slips back by (c - v_g) t; in simple_blowout the accelerating and focusing gradients are equal and the accelerating field vanishes half a plasma wavelength behind the driver.", "quantifier": "all density profiles, positions and times", "why_tests_cant": "closed formulas over all profiles, positions and times", "anchors": ["wake_t/physics_models/plasma_wakefields/focusing_blowout.py", "wake_t/physics_models/plasma_wakefields/custom_blowout.py", "wake_t/physics_models/plasma_wakefields/simple_blowout.py"]}
{"id": "C57", "title": "Boris pusher: centred Lorentz force", "statement": "The momentum after a Boris push solves (p'-p)/dt = q/(mc) (E + v x B) with v the mean of old and new momentum over the Lorentz factor after half of the electric kick, fields taken at the half-step position and time; the position moves half a step with the old and half a step with the new velocity.", "quantifier": "all particles, fields, steps", "why_tests_cant": "an identity in eleven real variables and arbitrary field functions", "anchors": ["wake_t/particles/push/boris_pusher.py:apply_boris_pusher"]}
{"id": "C58", "title": "Scratch arrays of a bunch match its size", "statement": "The arrays in which a bunch gathers fields and accumulates pushes always have one entry per particle. Holds for any sequence of pushes; it fails when the number of particles is changed with set_phase_space or a matrix after the first push, because they are allocated once.", "quantifier": "all sequences of pushes and phase-space changes", "why_tests_cant": "the size relation must hold after every history of calls", "anchors": ["wake_t/particles/particle_bunch.py:get_field_arrays", "wake_t/particles/particle_bunch.py:set_phase_space"]}
{"id": "C59", "title": "openPMD data of a bunch", "statement": "The data offered to the openPMD diagnostics are the bunch's positions, weights, species constants and name, momenta converted to kg m/s, and the window offset c t.", "quantifier": "all bunches and times", "why_tests_cant": "conversion must hold for every species and particle", "anchors": ["wake_t/particles/particle_bunch.py:get_openpmd_diagnostics_data"]}
{"id": "C60", "title": "Automatic bunch names", "statement": "Bunches created without a name get pairwise different names, in whatever order named and unnamed bunches are created; given names are kept. (A given name may coincide with an automatic one.)", "quantifier": "all creation sequences", "why_tests_cant": "unbounded sequences of constructor calls share a class-level counter", "anchors": ["wake_t/particles/particle_bunch.py:set_name", "wake_t/particles/particle_bunch.py:__init__"]}
{"id": "C61", "title": "Bunches work in place on the arrays they were given", "statement": "Pushing a bunch changes exactly the arrays it was created with: another bunch on the same arrays moves along, any other array is untouched. (So arrays passed to the constructor do not keep their values.)", "quantifier": "all bunches, fields, pushers, heaps", "why_tests_cant": "aliasing between objects for every heap", "anchors": ["wake_t/particles/particle_bunch.py:__init__", "wake_t/particles/push/boris_pusher.py", "wake_t/particles/push/runge_kutta_4.py"]}
{"id": "C62", "title": "Laser and beam sources at plasma particles", "statement": "The laser and beam fields that drive a plasma particle are those at its present position, whatever was gathered before. Holds for plasma particles up to the last radial grid point; a plasma particle beyond it keeps the values of an earlier slice.", "quantifier": "all grids, fields, particle positions and earlier array contents", "why_tests_cant": "depends on the history of the particle", "anchors": ["wake_t/particles/interpolation.py:gather_sources_qs_baxevanis", "wake_t/physics_models/plasma_wakefields/qs_rz_baxevanis/solver.py:calculate_and_deposit_plasma_column"]}
{"id": "C63", "title": "The Ruyten correction makes uniform densities uniform", "statement": "Depositing a uniform density (charge proportional to r between r and r+dr) with the correction switched on gives every radial cell a charge proportional to its area, for the linear shape in all cells and for the cubic shape in all but the last two (there the error is 1/960 of pi dr^2).", "quantifier": "all grids, all cells, all longitudinal positions", "why_tests_cant": "An integral over all radii for every grid size.", "anchors": ["wake_t/particles/deposition.py"]}
{"id": "C64", "title": "Depositing positive charge lowers no cell", "statement": "With non-negative weights every grid value after depositing is at least its value before, for both shapes, including the corrected ones and the folded edges.", "quantifier": "all particle lists and grids", "why_tests_cant": "Sign of every coefficient for every real position.", "anchors": ["wake_t/particles/deposition.py", "wake_t/physics_models/plasma_wakefields/qs_rz_baxevanis/deposition.py"]}
{"id": "C65", "title": "Unknown particle shapes are rejected", "statement": "Asking for a particle shape other than linear or cubic raises ValueError. (Finding: the plasma deposition silently deposits nothing instead.)", "quantifier": "all strings", "why_tests_cant": "All strings.", "anchors": ["wake_t/particles/deposition.py", "wake_t/physics_models/plasma_wakefields/qs_rz_baxevanis/deposition.py"]}
{"id": "C66", "title": "A laser step solves the discretised envelope equation", "statement": "Each iteration of the envelope solver returns the envelope for which the second-order finite-difference form of (laplacian_tr + 2i k0/kp d_t + 2 d_z d_t - d_t^2) a = chi a holds at every node (time-averaged Laplacian and chi; fast phase taken out of the z derivative), with the previous and current envelopes as data; the first step uses the version without d_t^2. (Finding: not at the outermost radius.)", "quantifier": "all grids with at least 3 radial and 2 longitudinal points, all envelopes, all non-negative susceptibilities", "why_tests_cant": "A statement about every node of every grid; existence of the solution needs non-vanishing pivots for all inputs.", "anchors": ["wake_t/physics_models/laser/envelope_solver.py:evolve_envelope", "wake_t/physics_models/laser/envelope_solver_non_centered.py:evolve_envelope_non_centered"]}
{"id": "C67", "title": "Laser profiles are the textbook ones", "statement": "Gaussian and Laguerre-Gauss pulses have the documented peak amplitude, spot size, FWHM duration, Gouy phase, wave-front curvature and carrier phase at every point; the Gaussian nowhere exceeds a_0; the flattened Gaussian has amplitude a_0 at its focus for every N and equals the Gaussian for N = 0.", "quantifier": "all parameters, positions, mode numbers and N", "why_tests_cant": "Real-analytic identities over all positions and a binomial identity over all N.", "anchors": ["wake_t/physics_models/laser/laser_pulse.py:GaussianPulse", "wake_t/physics_models/laser/laser_pulse.py:LaguerreGaussPulse", "wake_t/physics_models/laser/laser_pulse.py:FlattenedGaussianPulse"]}
{"id": "C68", "title": "Group velocity", "statement": "The group velocity is c k / sqrt(k^2 + k_p^2): positive, at most c, equal to c in vacuum and strictly decreasing with the density.", "quantifier": "all wavelengths and densities", "why_tests_cant": "All densities.", "anchors": ["wake_t/physics_models/laser/laser_pulse.py:LaserPulse.get_group_velocity"]}
{"id": "C69", "title": "The laser is causal in the co-moving frame", "statement": "The new envelope at and ahead of a slice does not depend on the envelope, the previous envelope or the plasma behind that slice.", "quantifier": "all grids, slices, inputs and numbers of substeps", "why_tests_cant": "Non-interference over all pairs of inputs.", "anchors": ["wake_t/physics_models/laser/envelope_solver.py:evolve_envelope"]}
{"id": "C70", "title": "Second-order transfer maps follow from the Hamiltonian", "statement": "The second-order terms of the transfer map of an element are those of the flow of the accelerator Hamiltonian expanded to third order, for drifts, quadrupoles, sextupoles and dipoles; splitting an element does not change the map to second order. (Finding: wrong for combined-function dipoles: the longitudinal coordinate when bending and focusing are combined, the vertical plane when bending and a sextupole component are combined, and in the resonant case 5 k1 + h^2 = 0.)", "quantifier": "all lengths, strengths, reference energies and coordinates", "why_tests_cant": "Differential equations for all positions; the wrong branches need special combinations of strengths.", "anchors": ["wake_t/physics_models/beam_optics/transfer_matrices.py:second_order_matrix", "wake_t/particles/push/transfer_matrix.py:track_with_transfer_map"]}
{"id": "C71", "title": "First-order maps are symplectic solutions of the linear equations of motion", "statement": "The first-order transfer matrix of an element of any length, bending angle and quadrupole strength (of either sign, and zero) solves the linearised equations of motion in the reference frame and preserves the symplectic form.", "quantifier": "all lengths, strengths, reference energies and pairs of coordinates", "why_tests_cant": "Differential equations and conservation over all inputs, across the focusing/defocusing/zero branches.", "anchors": ["wake_t/physics_models/beam_optics/transfer_matrices.py:first_order_matrix"]}
{"id": "C72", "title": "The CSR kernel is the integral of the retarded field", "statement": "The retarded distance increases strictly along the trajectory and is negative before the observer, so the interpolated tables are increasing; the shortcut used to find the first relevant point does not change the result; the tabulated integral is the trapezoidal rule applied to the retarded field, and the closed formula used before the start of the lattice is its exact integral along the straight line.", "quantifier": "all lattices, observer positions, energies, bin numbers", "why_tests_cant": "Needs all trajectories and real analysis (inverse of the retarded distance, derivative of the closed formula).", "anchors": ["wake_t/physics_models/collective_effects/csr.py:CSRCalculator._calculate_kernel", "wake_t/physics_models/collective_effects/csr.py:CSRCalculator._estimate_start_index"]}
{"id": "C73", "title": "The CSR kick", "statement": "A lattice without bends gives no CSR kick. The kick changes only the energy, depends only on the longitudinal coordinate, is proportional to the charge, and is the convolution of the smoothed charge profile behind the particle with the kernel. The histogram contains the whole charge.", "quantifier": "all bunches, charges, lattices, numbers of bins", "why_tests_cant": "Statements over all bunches and all lattices; exact cancellation of the straight-line terms.", "anchors": ["wake_t/physics_models/collective_effects/csr.py:CSRCalculator.apply_csr"]}
{"id": "C74", "title": "The reference trajectory of transfer-map elements", "statement": "The displacement and angle of the reference trajectory stored with the bunch are those of a straight line or circular arc with the curvature of the element, the same as used for CSR; the reference particle stays on it; the change to relative coordinates and back is the identity; to first order two elements in a row are equivalent to one of their total length.", "quantifier": "all elements, positions, particles", "why_tests_cant": "Statements over all elements and positions; needs real analysis.", "anchors": ["wake_t/beamline_elements/tm_elements.py:TMElement._create_new_bunch", "wake_t/beamline_elements/tm_elements.py:TMElement._get_beam_matrix_for_tracking"]}
{"id": "C75", "title": "Tracking backwards undoes tracking forwards", "statement": "Tracking a bunch forwards and then backwards through the same element brings every particle back. (Finding: false. Backtracking uses the forward maps and only reverses the distance; in bends the reference displacement is mirrored.)", "quantifier": "all elements and bunches", "why_tests_cant": "Universal statement over inputs.", "anchors": ["wake_t/beamline_elements/tm_elements.py:TMElement.track"]}
{"id": "C76", "title": "Fields are computed for the time of the tracker", "statement": "Whenever a numerical field is updated at tracking time t, the plasma density is taken at t*c, the laser has been evolved up to t in steps of the adjusted field step, and each laser step uses the density at its beginning; with a laser the last update is at the end of the element. (Finding: only for elements that have not been used before; in binary64 adjusting the step a second time can add an update.)", "quantifier": "all elements, configurations, numbers of steps", "why_tests_cant": "Relates two clocks over whole executions of any length.", "anchors": ["wake_t/fields/numerical_field.py:NumericalField.update", "wake_t/fields/rz_wakefield.py:RZWakefield"]}
{"id": "C77", "title": "Longitudinal derivative of the wakefield potential", "statement": "The derivative of the potential that the plasma solver assigns to each electron is the rate of change, while all electrons move with their radial velocities, of the potential relative to the edge, interpolated between the middle points to the neighbours and bounded by 3. (Finding: false with a parabolic profile once an electron is beyond the plasma edge.)", "quantifier": "all sets of electrons with distinct positive radii, all velocities", "why_tests_cant": "Relates a sum computed in one pass to the derivative of another function, for every number of particles.", "anchors": ["wake_t/physics_models/plasma_wakefields/qs_rz_baxevanis/psi_and_derivatives.py:calculate_psi_and_derivatives_at_particles"]}
{"id": "C78", "title": "Wakefields are causal", "statement": "The wakefields calculated for a slice depend only on the laser in that slice and ahead of it and on the bunch particles ahead of a position two slices behind it; the density and susceptibility of the plasma do so up to one more slice with the cubic shape.", "quantifier": "all arguments, lasers and bunches; every slice", "why_tests_cant": "Comparison of all pairs of drivers; a test can only compare some.", "anchors": ["wake_t/physics_models/plasma_wakefields/qs_rz_baxevanis/solver.py:calculate_wakefields"]}
{"id": "C79", "title": "A plasma without driver has no fields", "statement": "Without laser and bunches the wakefields in a uniform plasma are zero everywhere. (Refuted: the potential at the electrons is not zero because it is taken on a chord, so their gamma factor is not 1 + psi and a magnetic field appears in the first slice.)", "quantifier": "all valid arguments", "why_tests_cant": "Universal over plasma radius and resolution.", "anchors": ["wake_t/physics_models/plasma_wakefields/qs_rz_baxevanis/solver.py:calculate_wakefields", "wake_t/physics_models/plasma_wakefields/qs_rz_baxevanis/psi_and_derivatives.py"]}
{"id": "C80", "title": "The wakefield calculation succeeds for valid arguments", "statement": "With a known pusher and particle shape, at least three points each way and at least one plasma particle, the calculation reads and writes no entry outside of its arrays for any bunches and laser and returns arrays with two guard cells; an unknown pusher, an unknown shape (with bunches) or fewer points give ValueError.", "quantifier": "all arguments, bunches, lasers, orders of equal radii", "why_tests_cant": "Memory safety over all particle positions in compiled loops without bounds checks.", "anchors": ["wake_t/physics_models/plasma_wakefields/qs_rz_baxevanis/solver.py:calculate_wakefields"]}
{"id": "C81", "title": "Wakefields derive from one potential", "statement": "E_z and E_r - c B_theta are the longitudinal and radial differences of one potential, so they satisfy the Panofsky-Wenzel theorem for these differences at every grid point; the differences are exact for quadratic functions; the plasma is driven by the laser intensity, its radial gradient and the field of the bunches.", "quantifier": "all results of the calculation, all grid points", "why_tests_cant": "Identity over all inputs.", "anchors": ["wake_t/physics_models/plasma_wakefields/qs_rz_baxevanis/solver.py:calculate_wakefields", "wake_t/utilities/other.py:radial_gradient"]}
{"id": "C82", "title": "Fields and electrons of each slice are consistent", "statement": "In every slice the electrons feel the interpolated laser and bunch sources, the potential and magnetic field that solve the field equations of all the electrons and ions of that slice, and the grid gets these fields; the first column is the plasma at rest, all in plasma units.", "quantifier": "all slices of all runs with electrons at distinct radii; both pushers, all orders of storage", "why_tests_cant": "Holds for every configuration that the nonlinear motion can reach; no test can enumerate them.", "anchors": ["wake_t/physics_models/plasma_wakefields/qs_rz_baxevanis/solver.py:calculate_and_deposit_plasma_column", "wake_t/physics_models/plasma_wakefields/qs_rz_baxevanis/plasma_push/rk4.py"]}
{"id": "C83", "title": "Generated bunches have the requested Twiss parameters", "statement": "For any random numbers each particle of a generated bunch is the linear image of its normal numbers with the requested emittance, Twiss parameters, offset, pointing, energy, spread and length; random numbers with exact moments give exactly these moments; no particle is further than 3 rms lengths from the centre; a matched bunch keeps its sizes under the matched focusing.", "quantifier": "all parameters, all random numbers", "why_tests_cant": "Statements about all outcomes of the random number generator.", "anchors": ["wake_t/utilities/bunch_generation.py:get_gaussian_bunch_from_twiss", "wake_t/utilities/bunch_generation.py:get_matched_bunch"]}
{"id": "C84", "title": "Analysis of bunch lists", "statement": "The analysis of a list of bunches holds under every key, at index i, what the analysis of the i-th bunch holds under that key; keys have their documented meaning, averages weigh particles by their weight; it fails exactly for a bunch without charge.", "quantifier": "all lists of bunches, all keys", "why_tests_cant": "Tuples of 22 values are passed by position; a swap shows only for some keys.", "anchors": ["wake_t/diagnostics/bunch_analysis.py"]}
{"id": "C85", "title": "Response of the cold fluid", "statement": "With the one-dimensional cold fluid model the potential is zero at the front of the domain and follows from each slice to the one behind by the classical Runge-Kutta step of psi'' = (1 + a^2) / (2 (1 + psi)^2) - n_b - 1/2, a the strength of the laser averaged over its period, n_b the density of the bunches over that of the plasma; density, susceptibility, electric and magnetic field follow from the potential and the motion of the electrons in it. Only the laser strength and the set of particles matter; every particle within the domain is counted; each radius is on its own.", "quantifier": "all grids of at least 3 x 3 points, all lasers, all bunches", "why_tests_cant": "A solver can only be tried on a few drivers; the relation between potential and fields has to hold at every grid point.", "anchors": ["wake_t/physics_models/plasma_wakefields/qs_cold_fluid_1x3p.py:NonLinearColdFluidWakefield"]}
{"id": "C86", "title": "No driver, no cold fluid wake", "statement": "Without laser and with no particle inside the domain the density and the susceptibility are those of the plasma at rest and all fields are zero.", "quantifier": "all grids, all bunches outside the domain", "why_tests_cant": "Must hold at every point of every grid.", "anchors": ["wake_t/physics_models/plasma_wakefields/qs_cold_fluid_1x3p.py:NonLinearColdFluidWakefield"]}
{"id": "C87", "title": "The cold fluid wake does not act forward", "statement": "Density, susceptibility and transverse force in a slice depend only on the laser in this slice and ahead and on the particles ahead of the slice behind it; E_z one slice further back, E_r and B on those two slices further back.", "quantifier": "all pairs of drivers that agree ahead of a slice", "why_tests_cant": "Quantifies over pairs of runs.", "anchors": ["wake_t/physics_models/plasma_wakefields/qs_cold_fluid_1x3p.py:NonLinearColdFluidWakefield"]}
{"id": "C88", "title": "Consistent fields of the cold fluid", "statement": "The transverse force and E_z obey the theorem of Panofsky and Wenzel on the grid; without beam_wakefields bunches have no effect on the wake.", "quantifier": "all grids, lasers, bunches", "why_tests_cant": "Relation between fields at all grid points.", "anchors": ["wake_t/physics_models/plasma_wakefields/qs_cold_fluid_1x3p.py:NonLinearColdFluidWakefield"]}
{"id": "C89", "title": "Cold fluid: when it raises", "statement": "The calculation returns for every grid of at least 3 x 3 points with a supported shape; two points or an unknown shape with a bunch raise ValueError.", "quantifier": "all parameters", "why_tests_cant": "Total over all inputs.", "anchors": ["wake_t/physics_models/plasma_wakefields/qs_cold_fluid_1x3p.py:NonLinearColdFluidWakefield"]}
{"id": "C90", "title": "What a sequence of field updates computes", "statement": "For any sequence of updates of a plasma wakefield, the wakefield afterwards has density, laser and fields of the last update: the laser is set up with the grid of the wakefield and the time between updates and evolved once between updates with the susceptibility and density of the update before; the density is that at the distance of the window; with a laser the updates divide the stage evenly. Without laser evolution only the last bunches matter, and in a uniform plasma not even the number of updates; updates never raise for supported parameters.", "quantifier": "all boxes, lasers, densities, solvers, numbers of updates and bunches", "why_tests_cant": "Quantifies over all histories of updates.", "anchors": ["wake_t/fields/numerical_field.py:NumericalField", "wake_t/fields/rz_wakefield.py:RZWakefield", "wake_t/physics_models/plasma_wakefields/qs_rz_baxevanis/wakefield.py:Quasistatic2DWakefield"]}
{"id": "C91", "title": "What drives the wake", "statement": "The quasi-static wake depends on the laser only through its intensity averaged over a period: phases do not matter, linear polarization needs an amplitude larger by the root of two, a pulse that is zero is no pulse. A number as parabolic coefficient is a constant function, a function is taken at the position of the update, anything else raises ValueError. Without laser and with all particles off the box, a cold fluid wakefield acts on no particle.", "quantifier": "all grids, envelopes, bunches, histories", "why_tests_cant": "Quantifies over all pairs of envelopes and over all positions of particles.", "anchors": ["wake_t/physics_models/plasma_wakefields/qs_rz_baxevanis/wakefield.py:Quasistatic2DWakefield", "wake_t/physics_models/plasma_wakefields/qs_cold_fluid_1x3p.py:NonLinearColdFluidWakefield"]}
{"id": "C92", "title": "Fields in openPMD files", "statement": "The iteration written at a given time has meshes E, B and rho (with a laser also a_mod, a_phase and a) on the grid of the wakefield, at the absolute position of the window; values are those of the wakefield, in the units stated; a particle on a grid point feels the fields the file has there; other meshes and the species stay.", "quantifier": "all wakefields after any updates, all times and positions, any other content", "why_tests_cant": "Must hold at each point of each grid for any other content of the file.", "anchors": ["wake_t/diagnostics/openpmd_diag.py:OpenPMDDiagnostics", "wake_t/fields/rz_wakefield.py:RZWakefield._get_openpmd_diagnostics_data", "wake_t/utilities/other.py:generate_field_diag_dictionary"]}
{"id": "C93", "title": "Bunches in openPMD files", "statement": "If the names differ, each bunch is in the iteration under its name with absolute positions, momenta in SI units, weights, charge and mass of its species, whatever fields are written; there are no other species. Of bunches of the same name the last remains.", "quantifier": "all lists of bunches, times, positions, fields", "why_tests_cant": "Quantifies over all lists of bunches and fields.", "anchors": ["wake_t/diagnostics/openpmd_diag.py:OpenPMDDiagnostics", "wake_t/particles/particle_bunch.py:ParticleBunch.get_openpmd_diagnostics_data"]}
{"id": "C94", "title": "Threads do not change results", "statement": "A push of a bunch (Boris or Runge-Kutta, with analytical fields and fields on a grid) gives the same coordinates and fields whatever the number of threads, the distribution of the particles over them and the order in which they run, namely those of the loop over all particles on one thread; it always terminates. This rests on every iteration of the parallel loops touching only entries of its own particle; loops that add to a common cell, such as the deposition on a grid, would lose contributions.", "quantifier": "all numbers of particles and threads, all distributions of iterations, all interleavings of single reads and writes, all fields", "why_tests_cant": "The number of interleavings is beyond any test, and a race shows up only in some of them.", "anchors": ["wake_t/particles/push/boris_pusher.py:apply_boris_pusher", "wake_t/particles/push/runge_kutta_4.py:apply_rk4_pusher", "wake_t/particles/interpolation.py:gather_main_fields_cyl_linear", "wake_t/fields/gather.py:gather_fields", "wake_t/utilities/numba.py:njit_parallel"]}
{"id": "C95", "title": "Exceptions during tracking", "statement": "If a push, a field update or an output raises an exception, what was recorded and written before is the beginning of what the undisturbed tracking records and writes; bunches and fields are those of that moment, apart from what the unfinished operation did; nothing is retried or rolled back. The openPMD output does not move to the end of the element. The number of threads of the session is given back only if tracking completes.", "quantifier": "all configurations, all operations that may raise and all partial effects they may leave", "why_tests_cant": "Quantifies over all crash points.", "anchors": ["wake_t/tracking/tracker.py:Tracker.do_tracking", "wake_t/tracking/tracker.py:Tracker.generate_diagnostics"]}
{"id": "C96", "title": "Tracking in floating-point arithmetic", "statement": "With all times in binary64 and compared in binary32, as on the machine: outputs and field updates come exactly at the times obtained by adding their step repeatedly until binary32 places the next one after the end; for a run of at least 2^-100 s and at most 100000 outputs the k-th output (and the k-th forced even update) is within k 2^-50 of the total time of its nominal time, and at most the last one is missing; it is not missing if the end is not within about 2 n_out 2^-51 of a point where binary32 rounding jumps. Under that condition tracking terminates and every bunch ends at a time equal to the end in binary32, the pushes adding up to it within 2^-51 of the total time each. The last output can be lost otherwise.", "quantifier": "all configurations, bunches, fields and step functions, all total times above 2^-100 s, all numbers of outputs up to 100000", "why_tests_cant": "Whether rounding errors lose an output depends on the bits of the total time; no set of tests covers them.", "anchors": ["wake_t/tracking/tracker.py:Tracker.do_tracking", "wake_t/tracking/tracker.py:Tracker.evolve_bunch", "wake_t/fields/numerical_field.py:NumericalField.adjust_dt"]}
{"id": "C97", "title": "Bunches in external fields do not influence one another", "statement": "Tracking several bunches together through an element whose fields do not depend on them gives each bunch the final state, the outputs, the sequence of pushes and the field-update and output times it has when tracked alone with the same step; adding, removing or reordering other bunches changes nothing, however times are rounded when they are compared.", "quantifier": "all configurations, numbers of bunches, step sizes (constant or adaptive), fields independent of the bunches, roundings of the compared times, with or without synchronised outputs", "why_tests_cant": "Quantifies over all interleavings of the events of any number of bunches.", "anchors": ["wake_t/tracking/tracker.py:Tracker.do_tracking", "wake_t/tracking/tracker.py:Tracker.evolve_bunch"]}
{"id": "C98", "title": "Unsynchronised outputs do not perturb the tracking", "statement": "With push_bunches_before_diags=False the number of outputs has no influence: final bunches, final fields, the pushes of every bunch and the update times of every field are the same for any two numbers of outputs. (With the default True the pushes do depend on it.)", "quantifier": "all configurations, bunches, fields (also those driven by the bunches), step functions, roundings of the compared times and pairs of output counts", "why_tests_cant": "Quantifies over all pairs of runs.", "anchors": ["wake_t/tracking/tracker.py:Tracker.do_tracking", "wake_t/tracking/tracker.py:Tracker.generate_diagnostics"]}
{"id": "C99", "title": "Tracking keeps particles, weights and species", "statement": "After tracking through any element (analytical fields, wakefields on a grid, laser pulses) with either pusher, and in every output, a bunch has the same number of particles, the same weights, species charge and mass as before; its propagation distance has grown by c times the element duration (for output k by the corresponding fraction).", "quantifier": "all lists of analytical fields and of wakefields (as long as nothing raises), both pushers, all configurations with synchronised outputs, all bunches including those with an injection position", "why_tests_cant": "Quantifies over all fields, step sequences and bunches.", "anchors": ["wake_t/tracking/tracker.py:Tracker.do_tracking", "wake_t/particles/particle_bunch.py:ParticleBunch.evolve", "wake_t/particles/particle_bunch.py:ParticleBunch.copy"]}
{"id": "C100", "title": "An element without fields is a drift", "statement": "Tracking through an element without fields moves every particle on a straight line at its velocity for exactly the element duration, with either pusher, whatever the steps, the other bunches and the outputs; output k shows the straight flight up to the fraction k/n of the element.", "quantifier": "all configurations with synchronised outputs, all bunches, both pushers, constant and adaptive steps", "why_tests_cant": "Quantifies over all step sequences; a test compares one.", "anchors": ["wake_t/tracking/tracker.py:Tracker.do_tracking", "wake_t/particles/push/boris_pusher.py:apply_boris_pusher", "wake_t/particles/push/runge_kutta_4.py:apply_rk4_pusher"]}
{"id": "C101", "title": "Magnets keep the energy of every particle", "statement": "Tracking with the Boris pusher through an element whose fields are purely magnetic leaves the Lorentz factor of every particle unchanged, at the end and in every output, for any steps.", "quantifier": "all magnetic fields (any dependence on position and time), all configurations with synchronised outputs, all bunches", "why_tests_cant": "Holds for every field and step sequence.", "anchors": ["wake_t/tracking/tracker.py:Tracker.do_tracking", "wake_t/particles/push/boris_pusher.py:apply_boris_pusher", "wake_t/beamline_elements/active_plasma_lens.py:ActivePlasmaLens"]}
{"id": "C102", "title": "The progress bar does not influence the tracking", "statement": "Switching the progress bar on or off changes neither the final bunches, the outputs nor the events of a run. A visible bar has the length of the element, shows in turn the position of every push, field update and output, never goes back, ends at the full length and is closed; a hidden bar shows nothing; a run whose first output raises leaves the bar open. The text bar of transfer-map elements has 20 places, dashes in proportion to the steps done, and is full in the last step.", "quantifier": "all configurations, bunches, fields, numbers of loop iterations, visible or hidden bars, roundings of compared times", "why_tests_cant": "Quantifies over all runs and event sequences.", "anchors": ["wake_t/tracking/tracker.py:Tracker.do_tracking", "wake_t/tracking/progress_bar.py:get_progress_bar", "wake_t/utilities/other.py:print_progress_bar"]}
{"id": "C103", "title": "A laser pulse read from an openPMD file is the pulse in the file", "statement": "The initial envelope of a laser pulse given by an openPMD file has, at the grid node a distance d behind the front of the grid and at radius r, the vector potential of the file at time d/c and radius r. Smooth edges multiply it by a super-Gaussian of the radius, which increases nothing and leaves less than 1 % at the edge; the Gaussian filter is applied only when asked for, before the edges are smoothed. The pulse moves with the grid, has the wavelength of the file, and cannot be made without lasy.", "quantifier": "all files, grids, nodes, smoothing and filter options", "why_tests_cant": "Holds at every grid point for every grid and file.", "anchors": ["wake_t/physics_models/laser/laser_pulse.py:OpenPMDPulse"]}
{"id": "C104", "title": "CSR settings: the latest call holds, omitted arguments mean the defaults", "statement": "The CSR settings in force are those of the latest call of set_csr_settings, where an omitted argument means its default and not an earlier value; tracking and resetting do not change them. As long as the calculator has not been cleared, every element uses the step sizes in force when it was entered, whatever is set later. Resetting, or entering an element without CSR, empties the calculator.", "quantifier": "all sequences of setting, resetting and tracking since the import of the package", "why_tests_cant": "Quantifies over all call histories of a process-wide object.", "anchors": ["wake_t/physics_models/collective_effects/csr.py:set_csr_settings", "wake_t/physics_models/collective_effects/csr.py:reset_csr_calculator", "wake_t/beamline_elements/tm_elements.py:TMElement"]}
{"id": "C105", "title": "Parameter files give back what was saved", "statement": "Saving a dictionary of parameters writes exactly that dictionary to folder/name.h5, replacing an older file, creating the folder when missing and touching no other file; reading it gives the same dictionary up to the order of the keys. A bunch file holds the phase space, the charges and the propagation distance of the bunch.", "quantifier": "all dictionaries, folders, file names, contents of the disk, key orders", "why_tests_cant": "Quantifies over all dictionaries and disk contents.", "anchors": ["wake_t/diagnostics/bunch_analysis.py:save_parameters_to_file", "wake_t/diagnostics/bunch_analysis.py:read_parameters_from_file", "wake_t/diagnostics/bunch_analysis.py:save_bunch_to_file"]}
{"id": "C106", "title": "Simulations are axisymmetric", "statement": "Rotating all bunches about the axis by any angle, or mirroring them, rotates or mirrors the bunches and every output of the whole run in the same way; the fields on the grids, the times and the sequence of events are unchanged, also when the run fails. The wakefields on a grid always have this symmetry; of the analytical fields all but the quadrupole have it.", "quantifier": "all bunches, numbers of particles, rotations and reflections, combinations of fields, plasma models, laser pulses, steps, pushers, numbers of iterations", "why_tests_cant": "Quantifies over all initial bunches, angles and complete runs.", "anchors": ["wake_t/tracking/tracker.py:Tracker.do_tracking", "wake_t/fields/gather.py:gather_fields", "wake_t/fields/rz_wakefield.py:RZWakefield", "wake_t/particles/push/boris_pusher.py:apply_boris_pusher", "wake_t/particles/push/runge_kutta_4.py:apply_rk4_pusher"]}
{"id": "C107", "title": "Only the distribution of a bunch matters, not its macroparticles", "statement": "Replacing every bunch by one that represents the same distribution (the macroparticles in another order, or some replaced by several at the same place with the same total weight) gives a run with the same fields, times and events, and with bunches and outputs of the same distributions.", "quantifier": "all bunches, reorderings and splittings, combinations of fields, plasma models, steps, pushers, numbers of iterations", "why_tests_cant": "Quantifies over all pairs of representations and complete runs.", "anchors": ["wake_t/tracking/tracker.py:Tracker.do_tracking", "wake_t/particles/deposition.py:deposit_3d_distribution", "wake_t/particles/interpolation.py:gather_main_fields_cyl_linear", "wake_t/particles/particle_bunch.py:ParticleBunch"]}
{"id": "C108", "title": "How fields and bunches act on each other in a run", "statement": "A particle feels the sum of the fields that each field of the element alone would give it, and gathering raises exactly when it raises for one of them. A push of a bunch in a run is the push in that gathered field. A field update changes the updated field only, from the positions and charges of all bunches, with the solver of that field. With analytical fields only the run is the plain tracking of the bunches and nothing raises.", "quantifier": "all lists of fields, bunches, positions, times, steps, pushers", "why_tests_cant": "Quantifies over all combinations of fields and complete runs.", "anchors": ["wake_t/fields/gather.py:gather_fields", "wake_t/tracking/tracker.py:Tracker", "wake_t/fields/numerical_field.py:NumericalField.update", "wake_t/particles/particle_bunch.py:ParticleBunch.evolve"]}
{"id": "C109", "title": "Bunches without charge are test particles", "statement": "Leaving a bunch whose macroparticles carry no charge out of a run changes nothing else: the fields, the pushes, the final states and the outputs of the other bunches, and the times of field updates and outputs are the same. So they do not depend either on which test bunch is tracked with them, nor on its time step.", "quantifier": "all lists of bunches, any position of the test bunch in the list, its particles and its time step, combinations of fields, plasma models, steps, pushers, rounding of the comparisons, numbers of iterations", "why_tests_cant": "Quantifies over all pairs of complete runs.", "anchors": ["wake_t/tracking/tracker.py:Tracker.do_tracking", "wake_t/particles/deposition.py:deposit_3d_distribution", "wake_t/fields/rz_wakefield.py:RZWakefield"]}
{"id": "C110", "title": "What is behind has no effect on what is ahead", "statement": "Two runs with the Boris pusher and fixed steps, whose bunches differ only in macroparticles behind a position, make the same pushes, updates and outputs at the same times. Macroparticles, wakefields and evolving laser pulses stay the same ahead of a position that starts there and moves forward by five longitudinal cells of a wakefield whenever that wakefield is updated. So a bunch that stays ahead of it is tracked identically, and a trailing bunch can be left out without any effect on what is ahead.", "quantifier": "all positions, lists of bunches, differences behind the position (positions, momenta, weights, number of macroparticles), combinations of analytical fields and wakefields of both plasma models, laser pulses on the grid of the wakefield, steps, numbers of updates and outputs", "why_tests_cant": "Quantifies over all pairs of complete runs.", "anchors": ["wake_t/tracking/tracker.py:Tracker.do_tracking", "wake_t/fields/rz_wakefield.py:RZWakefield", "wake_t/physics_models/plasma_wakefields/qs_rz_baxevanis/solver.py:calculate_wakefields", "wake_t/physics_models/plasma_wakefields/qs_cold_fluid_1x3p.py:NonLinearColdFluidWakefield", "wake_t/physics_models/laser/envelope_solver.py:evolve_envelope", "wake_t/particles/push/boris_pusher.py:apply_boris_pusher"]}
{"id": "C111", "title": "The energy of a pulse depends neither on its mode nor on where it is", "statement": "In each slice, a Laguerre-Gauss pulse of any order has the transverse energy a_0^2 w_0^2 / 4 times the longitudinal profile, as the Gaussian pulse has, at focus and at any distance from it. Modes added to each other do not interfere: their energies add up whatever their phases. The flattened pulse has a fixed energy at all positions too. tau is the full width at half maximum of the energy along the pulse.", "quantifier": "all orders, amplitudes, waists, durations, foci, wavelengths, phases, positions and slices; all sums of modes, in any order of addition", "why_tests_cant": "An integral over the infinite transverse plane for every order, and orthogonality of all pairs of modes.", "anchors": ["wake_t/physics_models/laser/laser_pulse.py:GaussianPulse", "wake_t/physics_models/laser/laser_pulse.py:LaguerreGaussPulse", "wake_t/physics_models/laser/laser_pulse.py:FlattenedGaussianPulse", "wake_t/physics_models/laser/laser_pulse.py:SummedPulse"]}
{"id": "C112", "title": "Pulses diffract as in vacuum", "statement": "A Gaussian, Laguerre-Gauss or flattened pulse of any order, and any sum of such pulses of one wavelength, evaluated at different positions solves the paraxial wave equation in vacuum. Far from its focus on either side, the flattened pulse of order N has the profile exp(-x^2) (1 + x^2 + ... + x^(2N)/N!), with x the radius in units of the spot size.", "quantifier": "all sums of pulses, orders, parameters, slices, radii and positions; the far field is a limit for the position going to plus or minus infinity", "why_tests_cant": "A differential equation and a limit, for every order and all parameters.", "anchors": ["wake_t/physics_models/laser/laser_pulse.py:GaussianPulse", "wake_t/physics_models/laser/laser_pulse.py:LaguerreGaussPulse", "wake_t/physics_models/laser/laser_pulse.py:FlattenedGaussianPulse", "wake_t/physics_models/laser/laser_pulse.py:SummedPulse"]}
{"id": "C113", "title": "How a beam is given as bunches does not matter", "statement": "Giving the bunches of a simulation in another order changes nothing but that order: each bunch ends, and is seen in every output, as before, with the same pushes, and the fields are the same. Dividing bunches into more bunches (every particle in exactly one of them, with the same fixed steps and no injection positions) changes nothing either: in whole simulations with wakefields the new bunches consist of the same particles, at the end and in every output, as when they are tracked together, and the fields are the same.", "quantifier": "all elements (wakefields on a grid with both solvers, laser pulses, analytical fields), bunches, orders and divisions, steps, numbers of outputs, pushers and roundings of the compared times", "why_tests_cant": "Quantifies over all permutations and divisions of all beams and whole interleaved runs.", "anchors": ["wake_t/tracking/tracker.py:Tracker.do_tracking", "wake_t/fields/numerical_field.py:NumericalField.update", "wake_t/physics_models/plasma_wakefields/qs_rz_baxevanis/solver.py:calculate_wakefields", "wake_t/particles/particle_bunch.py:ParticleBunch.evolve"]}
{"id": "C114", "title": "Tracking through analytical fields raises nothing", "statement": "Tracking any bunches with consistent arrays through an element with analytical fields only ends and raises no exception, with either pusher, any steps and any positive number of outputs, and leaves the fields as they are. Only a bunch without particles that has an injection position, or an unknown pusher, raises.", "quantifier": "all lists of analytical fields, bunches, configurations with positive steps and adaptive steps bounded from below, both pushers, exact and float32 comparisons of times", "why_tests_cant": "Termination and absence of exceptions over all runs.", "anchors": ["wake_t/tracking/tracker.py:Tracker.do_tracking", "wake_t/particles/particle_bunch.py:ParticleBunch.evolve", "wake_t/fields/gather.py:gather_fields"]}
{"id": "C115", "title": "Steps that fit between the outputs: outputs and divisions of an element do not matter", "statement": "If a bunch has a fixed step and a whole number of steps fits between two outputs, it is pushed exactly at 0, d, 2d, ... for d each time (and otherwise only by pushes of no duration), so tracking through analytical fields is calling bunch.evolve step by step, at the end and in every output. Hence any two numbers of outputs between which steps fit give the same bunch at the end and at common output times; and in fields that do not change with time, tracking through two elements one after the other is tracking through one element of their total length. In fields that do change with time it is not, because the time starts at 0 in every element.", "quantifier": "all analytical fields, bunches (with and without injection position), steps, numbers of outputs and lengths with whole numbers of steps between outputs, other bunches with any steps, both pushers", "why_tests_cant": "Quantifies over all lengths, steps and numbers of outputs and over whole interleaved runs.", "anchors": ["wake_t/tracking/tracker.py:Tracker.do_tracking", "wake_t/tracking/tracker.py:Tracker.evolve_bunch", "wake_t/particles/particle_bunch.py:ParticleBunch.evolve", "wake_t/beamline_elements/plasma_stage.py:PlasmaStage.track"]}
{"id": "C116", "title": "Tracking converges to the motion in the fields as the steps are refined", "statement": "Take fields that vary at a bounded rate with position and time inside a box, and a solution of the equations of motion (dr/dt = v - c e_z, dp/dt = q/(mc)(E + v x B)) that stays inside a smaller box. Then there is a constant K such that in every run whose steps for the bunch are at most d (fixed or adapted) and short enough, a particle that starts on this solution is, at the end of the run and in every output at the time of the output, within K d of it - with either pusher, any number of outputs and any other bunches. If moreover the field halfway between two places and times differs from the mean of the fields by at most a constant times the square of the distance, the particle is within K d^2 of the motion. If the fields have gradients that vary at a bounded rate and the motion has five derivatives, the particle is, with the Runge-Kutta pusher, within K d^4 of the motion. There is at most one such motion. The fields of quadrupoles, of the active plasma lens and of the analytical wakefields in a uniform plasma satisfy all these hypotheses in every box, and every motion in them has any number of derivatives.", "quantifier": "all fields that vary at a bounded rate, motions in a box, particles, bunches without injection position, steps, numbers of outputs and other bunches, both pushers", "why_tests_cant": "A limit: quantifies over all short enough steps, all fields and all motions.", "anchors": ["wake_t/tracking/tracker.py:Tracker.do_tracking", "wake_t/particles/push/boris_pusher.py:apply_boris_pusher", "wake_t/particles/push/runge_kutta_4.py:apply_rk4_pusher", "wake_t/particles/particle_bunch.py:ParticleBunch.evolve"]}
{"id": "C117", "title": "The Boris pusher conserves phase-space volume", "statement": "Take any sequence of pushes with the Boris pusher, each with its own fields, start time and time step of any size, in fields that are differentiable with respect to position at the time they are used. Then one map of phase space (x, y, xi, px, py, pz) gives the result for every particle of every bunch; it can be differentiated everywhere, and the determinant of the matrix of its derivatives is 1. The same holds for tracking a bunch with a fixed time step through an element whose fields are differentiable: one such map gives the particles at the end and one the particles at each output, the same in every run with this configuration, whatever the other bunches. Tracking therefore neither compresses nor dilutes the particle distribution, however long the steps are. The fields of the magnets and of the analytical wakefields in a uniform plasma are differentiable at every time. The Runge-Kutta pusher lacks the property: one step in a uniform magnetic field multiplies the volume around a particle at rest by 569/576.", "quantifier": "all sequences of pushes, runs with a fixed time step, time steps, differentiable fields, charges, masses, bunches and particles", "why_tests_cant": "A statement about the derivatives of a map at every point of a six-dimensional space, for every field and every number of steps.", "anchors": ["wake_t/particles/push/boris_pusher.py:apply_boris_pusher", "wake_t/particles/push/boris_pusher.py:push_momentum", "wake_t/particles/push/boris_pusher.py:half_position_push", "wake_t/particles/push/runge_kutta_4.py:apply_rk4_pusher", "wake_t/tracking/tracker.py:Tracker.do_tracking"]}
{"id": "C118", "title": "Fields defined by users", "statement": "A field is made from up to six component functions and a list of constants; each function either adds its value to the array it is given or assigns it. Used alone, every component felt by the particles is the value its function means for these constants, and the components that are not given are zero; without any field the particles feel none. In any list of such fields, and separately for each component, the particles feel the sum of all fields if none of them assigns this component; otherwise the last one that assigns it replaces everything before it, including the wakefield of a plasma stage whose external field it is, and the ones after it are added. The total of fields that are linear in position and time, as those of the library are in a uniform plasma, is regular enough for tracking to converge and to conserve phase-space volume. (Finding: the field shown in the documentation of AnalyticalField assigns, so as external field of a plasma stage it is not applied in addition to the wakefield, as the stage promises, but erases its horizontal electric field.)", "quantifier": "all lists of fields, component functions, constants, wakefields that add, positions and times", "why_tests_cant": "The law is about arbitrary functions in arbitrary lists; tests use one field at a time.", "anchors": ["wake_t/fields/analytical_field.py:AnalyticalField", "wake_t/fields/gather.py:gather_fields", "wake_t/beamline_elements/plasma_stage.py:PlasmaStage", "wake_t/tracking/tracker.py:Tracker"]}
{"id": "C119", "title": "Motion in uniform fields", "statement": "Track a bunch through an element in which the fields are the same everywhere and always. In a magnetic field B with either pusher, and with the Runge-Kutta pusher also in an electric field E, the momentum that a particle has gained at the end and at every output is exactly q/(mc) (E t + d x B), where d is its displacement in the laboratory (co-moving coordinate plus propagation distance). With the Boris pusher in a magnetic field every particle stays on one cylinder around an axis along the field, whose radius is that of the exact motion, and its momenta along the field and perpendicular to it stay what they were. All this holds without error for time steps of any size, fixed or automatic; the axis does not depend on the steps. The only error is in the phase: with steps of at most d, the momentum has turned about the field by the angle through which the exact motion turns in a time that is shorter by at most the fraction (w d)^2/12, w being the cyclotron frequency.", "quantifier": "all uniform fields (also given by several field objects), elements, time steps, numbers of outputs, bunches without delayed injection, particles", "why_tests_cant": "An exact identity for every field direction, step size and number of steps; a test compares one orbit within a tolerance.", "anchors": ["wake_t/particles/push/boris_pusher.py:apply_boris_pusher", "wake_t/particles/push/runge_kutta_4.py:apply_rk4_pusher", "wake_t/particles/particle_bunch.py:ParticleBunch.evolve", "wake_t/tracking/tracker.py:Tracker.do_tracking", "wake_t/fields/analytical_field.py:AnalyticalField"]}
{"id": "C120", "title": "Angular momentum about the axis", "statement": "In a simulation with the Boris pusher whose fields are axisymmetric (wakefields on a grid of either model, with laser pulses and beam loading, updated during the tracking; active plasma lenses; analytical blowout wakefields; user-defined axisymmetric fields) every particle of every bunch keeps exactly its angular momentum x py - y px, in the final bunches and in all outputs, for time steps of any size. With either pusher, a particle whose position and momentum lie in a plane through the axis stays in that plane, and a particle that flies along the axis stays on it as long as the run raises nothing (in a wakefield on a grid, a particle exactly on the axis raises ZeroDivisionError). The Runge-Kutta pusher does not keep the angular momentum exactly.", "quantifier": "all simulations: fields, field updates, bunches, particles, time steps, numbers of outputs, roundings of the clocks", "why_tests_cant": "A conserved quantity of every particle over any number of steps in self-consistent fields; a test sees one run and rounding errors.", "anchors": ["wake_t/particles/push/boris_pusher.py:apply_boris_pusher", "wake_t/particles/push/runge_kutta_4.py:apply_rk4_pusher", "wake_t/particles/interpolation.py:gather_main_fields_cyl_linear", "wake_t/fields/gather.py:gather_fields", "wake_t/tracking/tracker.py:Tracker.do_tracking"]}
{"id": "C121", "title": "No particle is faster than light", "statement": "In a simulation with either pusher, in any fields and with steps of any size, a particle is found at the end and at every output within the distance c t of its laboratory position a time t earlier (less than c t, if t is not zero): t counted from the start or from any earlier output. In the coordinates of the code (the frame moves with c) a particle therefore always falls behind the frame, by less than 2 c t, and moves sideways by less than c t.", "quantifier": "all simulations: fields, field updates, bunches, particles, pushers, time steps, pairs of outputs", "why_tests_cant": "A bound on every particle between every pair of outputs, in fields of any strength and for steps of any size (also where the pusher is inaccurate); a test samples a few.", "anchors": ["wake_t/particles/push/boris_pusher.py:apply_boris_pusher", "wake_t/particles/push/runge_kutta_4.py:apply_rk4_pusher", "wake_t/particles/push/boris_pusher.py:apply_half_position_push", "wake_t/particles/particle_bunch.py:ParticleBunch.evolve", "wake_t/tracking/tracker.py:Tracker.do_tracking"]}
{"id": "C122", "title": "No more energy than the electric field can give", "statement": "Tracking with the Boris pusher through external (analytical) fields: if the electric field is at most E wherever the particles of a bunch can be without being faster than light, then after the time t the modulus of the momentum (in units of mc) and the Lorentz factor of every particle have changed by at most |q| E t / (mc), at the end and in every output, for steps of any size and magnetic fields of any strength. With the Runge-Kutta pusher the same holds if there is no magnetic field. A particle flying along a uniform accelerating field gains exactly this momentum. In an ion column (focusing blowout field) of density at most n, with all particles within the radius R at the start, E = n e (R + c t) / (2 eps0) is such a bound.", "quantifier": "all lists of external fields, bunches, particles, time steps (also adaptive), numbers of outputs", "why_tests_cant": "A bound for every particle and every step size, including steps so large that the trajectory is wrong; a test samples a few fields and steps.", "anchors": ["wake_t/particles/push/boris_pusher.py:apply_boris_pusher", "wake_t/particles/push/boris_pusher.py:push_momentum", "wake_t/particles/particle_bunch.py:ParticleBunch.evolve", "wake_t/physics_models/plasma_wakefields/focusing_blowout.py:FocusingBlowoutField", "wake_t/tracking/tracker.py:Tracker.do_tracking"]}
