# Formal model of Wake-T in Rocq (Coq 8.16.1)

The deliverable is `rocq/theories/`. The source of truth is `/repo/wake_t`; it
is read as text, never run. Every definition of a `Model_*.v` file cites the
lines it models and says what is simplified.

## Layout

For each area `X` of the code there are up to four files:

| file | content |
|---|---|
| `Model_X.v` | executable/total Gallina functions mirroring the Python, no proofs |
| `Spec_X.v` | small independent specification (only when the property needs vocabulary) |
| `Proofs_X.v` | lemmas |
| `Properties_X.v` | only the property theorems (`exact lemma.`), `Print Assumptions`, and the non-vacuity `Example`s |

## Conventions

* **Numbers.** Times of the event scheduler are rationals `Q` (computable,
  axiom free). Field, particle and optics arithmetic uses the stdlib reals `R`.
  Indices are `Z` or `nat`. Float64 arithmetic is read as exact arithmetic,
  except where the control flow of the code depends on rounding: the float32
  comparisons of the tracking loop (C09, binary32 or any monotone rounding), all
  arithmetic on times in that loop (C96, binary64), the step sizes of transfer
  map elements (C49, binary64), and the loop of `b_theta.py` that repeats when
  precision is lost (C46, any rounding).  Both roundings are proved equal to
  Flocq's `round` in the IEEE formats (`C09_rounding_is_binary32`,
  `C96_rounding_is_binary64`); overflow is not modelled.
* **Exceptions** are values (`Err e` / `Ok v`), with the state reached at the
  time of raising where the property is about it.
* **Loops** are structural recursions/folds over the iterated list or index
  range. The only open-ended loop (`while True` of the tracker) runs on explicit
  fuel, returns `OutOfFuel` when exhausted, and termination is a theorem.
* **Arrays** are functions from indices or lists; in-place mutation returns the
  new value. Work buffers that survive a call are part of the state.
* **External code** (numpy, scipy.constants, aptools, openPMD, Ocelot) appears as
  section variables, i.e. universally quantified in every theorem.
* If the code violates the property as a user would state it, the theorem is
  called `..._refuted` and exhibits a witness; the true part is proved
  separately and the property is `partial` in the manifest.

## Plan per property

| id | modelled | proof |
|---|---|---|
| C01 | tracker event loop, fuelled | measure: remaining time of each object over its smallest step |
| C02 | same | invariant: a bunch with time < t_final always has its next time <= t_final |
| C03 | push log of the loop | invariant on the log by induction over events |
| C04 | output log | refinement: the diagnostics clock is k*t_final/n |
| C05 | output log with bunch clocks | one-step lemma on the diagnostics event |
| C06 | event log | argmin lemma + monotonicity invariant |
| C07 | field update log | refinement: the field clock is k*dt |
| C08 | `adjust_dt` | arithmetic of the ceiling |
| C09 | loop parametric in a monotone rounding | same invariants, plus a witness run for the exact claim |
| C10 | constructor + loop with n_diags=0 | witness (refuted) and exact behaviour |
| C11 | `FieldElement.track` argument handling | case analysis |
| C12 | `Beamline.track` as a fold over state-passing elements | induction over the element list |
| C13 | `OpenPMDDiagnostics` as a state machine with a log of written iterations | invariant over call sequences |
| C14 | `ParticleBunch.evolve` as a state machine | induction over push lists |
| C15 | bunch record and copy | field-wise equality, refuted for dropped attributes |
| C16 | matrix getters/setters | algebra in R |
| C17 | q property | algebra, sign cases |
| C18 | weighted mean, shift | induction over particle lists |
| C19-C22 | Boris pusher on R^3 x R^3 | ring/field identities |
| C23 | RK4 staged with in-place buffers | equality with the textbook scheme |
| C24 | whole-bunch push as map | map/permutation lemmas |
| C25 | gather over a list of fields into dirty buffers | induction, refuted for assigning fields |
| C26 | bilinear gather with guard offset, option for out-of-range reads | floor lemmas, convexity |
| C27 | `interpolate_rz_field` | floor/clamp case analysis |
| C28-C31 | linear and cubic deposition on Z x Z -> R arrays | finite sums, case analysis of edges; refuted where edges are mixed up |
| C32 | TDMA loops | induction on rows; refuted for the last row |
| C33 | pulse state machine | invariant over call histories |
| C34 | expression tree of pulses | induction |
| C35 | backward loop with rolling buffers | induction over rows |
| C36 | unwrap recursion | induction |
| C37 | `first_order_matrix` with real trig/hyperbolic branches | trig identities |
| C38 | step selection and output construction | arithmetic on lists |
| C39 | element state across calls | refuted with witness; true part proved |
| C40 | ramp profiles | analysis (exp, powers) |
| C41 | configuration dispatch | case analysis |
| C42 | per-particle update | field identities |
| C43 | mirror + push | case analysis, symmetry |
| C44 | AB5 formula | ring identity on quartics |
| C45 | cumulative sums and carried-index search | induction over sorted lists |
| C46 | recursion for a_i, b_i | linear algebra by induction |
| C47 | column initialisation | sums |
| C48 | cumulative sum | sums |
| C49 | CSR step selection + calculator state | arithmetic, refuted after clear |
| C50-C51 | generators (deterministic part) | algebra |
| C52-C53 | conversions | algebra, trig |
| C54 | selection logic, save/read | case analysis, round trip |
| C55-C56 | analytical fields, gathered and inserted in the equations of motion | algebra |
| C57 | Boris pusher | field identities (the rotation solves the implicit equation) |
| C58-C61 | bunch as references into a heap of arrays, constructor counter | invariants over call sequences, frame lemmas |
| C62 | gathering into reused arrays | cell lemma of C26; counterexample outside |
| C63 | radial share of a unit particle, derived from the deposit itself | Coquelicot integrals of the polynomial pieces, Chasles |
| C64 | same | sign analysis of the weights |
| C65 | shape strings | case analysis; refuted for the plasma |
| C66 | both solvers, in-place loop over slices, complex arithmetic | loop invariant (refinement to the recursion), diagonal dominance for the pivots, ring identity between matrix rows and the scheme |
| C67 | envelope functions with complex exponential | polar form; binomial theorem |
| C68 | real formula | monotonicity of sqrt |
| C69 | same as C66; unwrap | locality of phase jumps, induction over slices and substeps |
| C70 | all entries of the second-order matrix, complex square roots, zero branches | derivatives of the auxiliary integrals, polynomial identities; uniqueness of the linear ODE for the composition |
| C71 | first-order matrix | derivatives and ring identities, case split on the signs |
| C72 | retarded distance, start index, long and short range kernel, over a table of points | triangle inequality, induction over lists, Coquelicot derivatives |
| C73 | histogram, kernel density estimate, convolution, interpolation | induction over lists; cancellation in the straight case |
| C38 | heap model of TMElement.track with the CSR calculator | invariant over the steps; exact step plan of C49 |
| C39 | the element and the CSR calculator are part of the state returned by track | rewriting; counterexample with two bunches |
| C74 | reference angle and displacement in _create_new_bunch, coordinate changes | derivatives, trigonometry, composition of maps from C37 |
| C75 | track with backtrack | forward/backward counterexample |
| C40 | ramp_profiles and the density function of PlasmaRamp | exp, ln, sqrt monotonicity |
| C41 | constructors of PlasmaStage, ActivePlasmaLens, FieldQuadrupole and their automatic step | case analysis; real inequalities |
| C76 | state of the field clock and laser clock as the fields of the tracker model | replay of the tracker log (C01-C08) |
| C45 | psi_and_derivatives.py: the loops over sorted particles and the search on the grid | partial sums of the sorted list = sums over radii below x; Coquelicot integrals and derivatives |
| C47 | plasma_particles.py initialize | closed sums; rounding to even |
| C77 | dxi_psi loop and boundary term | derivative of the relative potential along the straight motion of all particles |
| C46 | b_theta.py: recursion from the axis (and the unused one from the edge), repeated passes when precision is lost, values on the grid and at particles | chain of linear maps = solution of the field equations between particles; uniqueness by growth of the homogeneous solution; termination of the passes for any rounding |
| C78 | solver.py: sources, slices from the front to the back, derived fields | two runs in lockstep; slices behind write only behind; deposition of a particle reaches less than two cells |
| C79 | the whole calculation for one ring of electrons | explicit value of the magnetic field in the first slice, positive since ln 2 > 1/2 |
| C80 | the whole calculation, with faults for entries outside of arrays | invariants of column and arrays over all slices |
| C81 | numpy.gradient (both edge orders), radial_gradient, derived fields | differences in the two directions commute; rows are written by their slice only |
| C82 | the column of a slice, the substeps of rk4, the first column | combines C45, C46, interpolation and mass shell for the arrays that the solver passes on |
| C50 | bunch_generation.py: three generators, random numbers from a state | sum of equal weights |
| C51 | bunch_generation.py: sizes to beta | s^2 ene/en inverts sqrt (en/ene b) |
| C54 | get_from_file, save_bunch_to_file; aptools reading and writing as parameters | case analysis; round trip for a library that returns what it stored |
| C83 | bunch_generation.py | closed form of the slopes; sums over particles |
| C84 | bunch_analysis.py; aptools functions as parameters | induction over the list, key by key |
| C85 | qs_cold_fluid_1x3p.py: deposition, gather, Runge-Kutta loop, fields | the loop gives the slices one by one; gather at and between grid points (C26); the fields are functions of psi |
| C86 | the same | psi = 0 is a fixed point of the step |
| C87 | the same | induction over slices for two runs |
| C88 | the same | differences along r and xi commute; difference of two runs in Ampere's law |
| C89 | the same | totality of deposition and gather |
| C90 | numerical_field.py, rz_wakefield.py: objects with clock, laser, density and arrays; solver as parameter, instantiated with both models | induction over updates: a run is a history and conversely |
| C91 | wakefield.py of the quasi-static model; parts of C85-C89 for the fluid | the solver sees |a|^2 on the grid only; C86 and C26 |
| C92 | _get_openpmd_diagnostics_data, generate_field_diag_dictionary, _write_fields, dictionaries | lookup after insertion; C26 on grid points |
| C93 | _write_species, write_diagnostics | lookup after insertion; C59 |
| C94 | loops as programs of single reads and writes of array entries; threads interleave arbitrarily, with a barrier after each loop | invariant over interleavings (each pending iteration still has its own column to transform), counting of the remaining steps, then column by column equality with the models of C19-C26 |
| C95 | tracker.py:140-313 with operations that may raise and leave partial effects | simulation of the undisturbed tracking up to the crash, growth of log and outputs after it |
| C96 | tracker.py:100-302 and numerical_field.py:92-99 with a rounding of every sum, difference and quotient of times (binary64), comparisons in binary32 | invariant: clocks are ticks of a fixed step; error bounds by induction; bunches are at the end or their next step is accepted; decreasing measure for termination; a run computed by the kernel for the lost output |
| C97 | tracker.py:140-262 run on the whole list of bunches and on one of them | simulation: each event of the run of one bunch is an event of the common run, the others are stuttering steps; the first smallest clock of all objects is the first smallest of the selected ones |
| C98 | tracker.py:140-262 with two numbers of outputs | both runs simulate the loop without outputs, which is deterministic |
| C99 | tracker.py:140-262 with particle_bunch.py:269-321 and the pushers, with analytical fields (Model_Run) and with wakefields (Model_Sim) | invariant carried along the pushes that tile the interval (C03, C05), for the final state and each output |
| C100 | the same without fields | the same invariant with the straight flight up to the current time |
| C101 | the same with magnetic fields and the Boris pusher | the same invariant with the moduli of the momenta |
| C102 | tracker.py:140-262 with the bar of progress_bar.py threaded through; utilities/other.py | the run with the bar projects to the run without; the positions shown are matched to the log by an invariant of the loop, then C06 |
| C103 | laser_pulse.py:592-706; lasy, the Gaussian filter and the file are parameters | the array is computed at an arbitrary node; the factor by monotonicity of exp |
| C104 | csr.py:426-463, tm_elements.py:115-119; the calculator threaded through a list of calls | induction on the list of calls |
| C105 | bunch_analysis.py:79-108 on a list of folders and files | induction on the dictionary; refuted for h5py 3 by following the same code |
| C106 | tracker.py, gather.py, boris_pusher.py, runge_kutta_4.py, deposition and both plasma models wired together (Model_Sim.v) | the generic run is parametric in bunches and fields: a relation kept by push, copy and update is kept by the run; each of these is shown to commute with the turn, particle by particle |
| C107 | the same model | the same parametricity; deposition is a weighted sum, a push acts on each particle alone |
| C108 | the same model | a push of all particles is a map of a push of one; gathering by induction on the fields |
| C109 | the same model | simulation between the runs with and without the bunch: its events are skipped, its deposit adds nothing, the others happen in the same order |
| C110 | the same model | simulation between the two runs, with a relation that depends on a position: pushes move backwards in the comoving frame, gathering reads the cells around the particle, the solvers and the pulse march backwards |
| C111 | the laser profiles of C67 | orthogonality of the Laguerre polynomials with weight exp(-x) through alternating binomial sums; substitution x = 2 r^2 / w^2 in an improper integral |
| C112 | the laser profiles of C67 | Laguerre's differential equation, then derivatives of the real and imaginary parts of a mode; sums by linearity; far field: the modulus is a continuous function of the Gouy phase, whose value at +-pi/2 is an inverse binomial sum of Laguerre polynomials |
| C113 | the simulations of C106 | the run is split into phases between synchronisation points, within which bunches do not see each other; the phases of the regrouped run are related to those of the given one; deposition is additive and independent of order |
| C114 | the simulations of C106 | a run of itself against itself with the invariant that nothing is an exception (`same_run`), on top of C01 |
| C115 | tracking in analytical fields (Model_Run) | every push before an output ends at an output time (invariant of the loop), so with C03 and C04 every push has length 0 or d; then an invariant counted in steps along the log |
| C116 | tracking in analytical fields (Model_Run), both pushers (Model_Push) | one push is p + h Phi(h, t, p) with Phi bounded and Lipschitz and Phi(0, t, p) the right-hand side, so it is stable and consistent (mean value theorem); the fields are continued outside the box, where the particle is shown never to be; error bound as an invariant along the log; second order by a calculus of quantities of order h^k along the motion (bounded second differences of positions, momenta, 1/gamma and fields), the midpoint rule, and for Boris the implicit midpoint form of the momentum push; fourth order of RK4 by linearising the right-hand side along the motion and by Simpson's rule |
| C117 | sequences of Boris pushes (Model_Push) | a calculus of gradients (first-order remainders) and the 6x6 determinant by expansion; the half position pushes add multiples of the momentum rows to the position rows, the momentum push mixes the momentum rows by the derivative of the rotation, whose 3x3 determinant is 1; for Runge-Kutta the matrix of one step in a uniform field is computed; a whole run is simulated by a run of the tracker on maps instead of bunches |
| C118 | AnalyticalField with arbitrary component functions (Model_Own), gathering (Model_Push), the field list of a plasma stage (Model_Stage) | induction on the list, one entry of one array at a time |
| C119 | tracking with both pushers (Model_Push, Model_Bunch, Model_Tracker, Model_Run) | p - q/(mc) r x B is a linear function of the coordinates that each push advances at a constant rate (Boris by its implicit midpoint form and conservation of gamma, Runge-Kutta because all stages have the same rate); invariant along the log of the run; the rotation of one push is by 2 atan(w h/2), rotations about one axis add up, x - x^3/3 <= atan x <= x |
| C120 | whole simulations (Model_Sim) | mirroring at the plane through a particle and the axis (lemmas of C106) shows that the gathered electric field is radial and the magnetic field azimuthal; drift and momentum push keep x py - y px by algebra; invariant of the tracking loop for any field updates; for the Runge-Kutta pusher a step at the end of a plasma is computed |
| C121 | whole simulations (Model_Sim) | every velocity has length at most c; a Boris step is two drifts and a Runge-Kutta step a convex combination of four velocities, so the triangle inequality bounds each push; relation between any two points of the log of the tracking loop, for any field updates |
| C122 | tracking through external fields (Model_Run) | a Boris push is two electric kicks and a rotation that keeps the modulus (Runge-Kutta without magnetic field: a convex combination of four kicks), so the triangle inequality bounds the change; the light cone of C121 says where the field is needed; relation between the start and any point of the log of the tracking loop |

Outside every model: the random number generators themselves (samples are
arbitrary inputs), HDF5 bytes, plots, compilation by numba (including
`fastmath` reassociation), the drawing of the progress bar. Section "What is
modelled" lists this file by file.

## Trusted base

* Coq's kernel (8.16.1), no flags switched off.
* The reading of the Python: the correspondence between `Model_*.v` and the
  cited lines.
* Axioms: the scheduler and list/index files are axiom free. Files over `R` use
  the standard library's reals and hence at most
  `ClassicalDedekindReals.sig_forall_dec`, `ClassicalDedekindReals.sig_not_dec`,
  `FunctionalExtensionality.functional_extensionality_dep` (and, through
  analysis lemmas of the standard library, `Classical_Prop.classic`). The
  per-theorem list is at the end of this file.
* Section variables and hypotheses are used inside sections only, so they appear
  as quantifiers and premises of the theorems; there are no axioms, functors or
  module types of our own and no `Admitted`.
* Models of external functions are quantified over (arbitrary functions) or have
  their contract as a premise visible in the theorem; nothing about numpy, scipy,
  h5py, aptools, openPMD or Ocelot is assumed silently. Physical constants are
  arbitrary positive numbers.

## What is modelled

All paths are below `wake_t/`. The column "statements" counts the statements of
the functions in the file (without docstrings) that lie in a line range cited by a
definition of a model, and all of them. The column "in" names the models
(`Model_X.v`). Every definition of a model cites the lines it models.

| file | statements | in | not modelled |
|---|---|---|---|
| `beamline_elements/active_plasma_lens.py` | 30/30 | Push, Stage |  |
| `beamline_elements/beamline.py` | 13/13 | Element |  |
| `beamline_elements/field_element.py` | 40/40 | Element |  |
| `beamline_elements/field_quadrupole.py` | 16/16 | Stage |  |
| `beamline_elements/plasma_ramp.py` | 37/37 | Stage |  |
| `beamline_elements/plasma_stage.py` | 43/43 | Stage |  |
| `beamline_elements/tm_elements.py` | 133/144 | CSR, Element, Optics, Settings, TM | printing of the parameters |
| `diagnostics/bunch_analysis.py` | 122/122 | Gen, Params |  |
| `diagnostics/openpmd_diag.py` | 175/178 | Element, RZ |  |
| `fields/analytical_field.py` | 19/20 | Own, Par, Push |  |
| `fields/base.py` | 3/6 | Element, Push | abstract methods |
| `fields/gather.py` | 10/10 | Par, Push, Sim |  |
| `fields/interpolation.py` | 27/27 | Interp |  |
| `fields/numerical_field.py` | 16/20 | RZ, Stage, TrackFl, Tracker | abstract methods |
| `fields/rz_wakefield.py` | 101/102 | Fluid, Interp, Par, QS, RZ, Sim, Stage | abstract methods |
| `particles/deposition.py` | 143/147 | Deposit, Par |  |
| `particles/interpolation.py` | 114/114 | Interp, Par |  |
| `particles/particle_bunch.py` | 160/163 | Bunch, Element, Gen, Par, Run, Sim, TM | `show` (plots) |
| `particles/push/boris_pusher.py` | 47/47 | Par, Push, Sim |  |
| `particles/push/runge_kutta_4.py` | 77/77 | Par, Push, Sim |  |
| `particles/push/transfer_matrix.py` | 6/6 | Optics |  |
| `physics_models/beam_optics/transfer_matrices.py` | 171/171 | Optics |  |
| `physics_models/collective_effects/csr.py` | 185/185 | CSR, Settings |  |
| `physics_models/em_fields/linear_b_theta.py` | 7/7 | Push |  |
| `physics_models/em_fields/quadrupole.py` | 7/7 | Push |  |
| `physics_models/laser/envelope_solver.py` | 53/53 | Laser |  |
| `physics_models/laser/envelope_solver_non_centered.py` | 52/52 | Laser |  |
| `physics_models/laser/laser_pulse.py` | 219/240 | Interp, Laser, Lasy, Stage |  |
| `physics_models/laser/tdma.py` | 14/14 | Laser |  |
| `physics_models/laser/utils.py` | 39/39 | Laser |  |
| `physics_models/plasma_wakefields/custom_blowout.py` | 28/28 | Push |  |
| `physics_models/plasma_wakefields/focusing_blowout.py` | 13/13 | Push |  |
| `physics_models/plasma_wakefields/qs_cold_fluid_1x3p.py` | 98/98 | Fluid, RZ, Sim |  |
| `physics_models/plasma_wakefields/qs_rz_baxevanis/b_theta.py` | 214/214 | BTheta, Psi |  |
| `physics_models/plasma_wakefields/qs_rz_baxevanis/deposition.py` | 101/101 | Deposit |  |
| `physics_models/plasma_wakefields/qs_rz_baxevanis/plasma_particles.py` | 87/96 | Psi, QS |  |
| `physics_models/plasma_wakefields/qs_rz_baxevanis/plasma_push/ab5.py` | 40/40 | QS |  |
| `physics_models/plasma_wakefields/qs_rz_baxevanis/plasma_push/rk4.py` | 62/62 | QS |  |
| `physics_models/plasma_wakefields/qs_rz_baxevanis/psi_and_derivatives.py` | 117/172 | Psi |  |
| `physics_models/plasma_wakefields/qs_rz_baxevanis/solver.py` | 148/148 | QS, RZ, Sim |  |
| `physics_models/plasma_wakefields/qs_rz_baxevanis/wakefield.py` | 31/47 | RZ |  |
| `physics_models/plasma_wakefields/simple_blowout.py` | 30/30 | Push |  |
| `tracking/progress_bar.py` | 11/11 | Progress | tqdm |
| `tracking/tracker.py` | 101/101 | Crash, Element, Float32, Own, Progress, RZ, Run, Sim, Stage, TrackFl, Tracker |  |
| `utilities/bunch_generation.py` | 82/82 | Gen |  |
| `utilities/bunch_manipulation.py` | 32/32 | Optics |  |
| `utilities/bunch_saving.py` | 17/17 | Gen |  |
| `utilities/numba.py` | 1/2 | Par | compilation |
| `utilities/other.py` | 37/37 | Progress, QS, RZ |  |

Outside of the models: numpy, scipy, aptools, h5py, openPMD-api, lasy, tqdm and
numba themselves (parameters of the theorems, or read as their documentation
says), bytes of files, random numbers, printed text.

## Findings

Behaviour of the code that a user would not expect. First what a theorem shows:

* `C10_zero_outputs_accepted_refuted`: `n_out=0` raises AttributeError.
* `C15_all_attributes_refuted`: `copy` drops tags, `t_flight` and `z_injection`.
* `C25_blowout_fields_refuted`: blowout fields assign where other fields add, so they
  erase the fields listed before them.
* `C29_linear_refuted`, `C29_cubic_refuted`, `C31_linear_refuted`: the linear
  deposition compares the radial cell with the number of longitudinal cells; the
  cubic one leaks charge into guard cells on grids of two cells.
* `C32_refuted`, `C32_small_refuted` (consequence in C66): the tridiagonal solver
  does not solve the last row.
* `C33_grid_change_refuted`: the test against a change of the laser grid combines its
  conditions with `and`.
* `C34_polarisation_refuted`: a sum of circularly polarised pulses is linearly polarised.
* `C38_initial_refuted`: `out_initial` without a number of outputs does not advance
  the bunch.
* `C39_refuted`, `C39_plasma_refuted`: transfer map elements keep the energy of their
  first bunch; plasma elements continue the clock of their previous run.
* `C42_at_rest_refuted`: plasma electrons that are reset keep psi and a^2.
* `C49_rounding_refuted`, `C49_clear_refuted`: a CSR step can be lost to rounding;
  `clear` does not forget the trajectory steps.
* `C58_scratch_arrays_follow_the_bunch_refuted`: the work arrays of a bunch keep their
  size when the number of particles changes.
* `C60_all_names_distinct_refuted`: an automatic name can equal a given one; bunches of
  the same name overwrite each other in openPMD files.
* `C62_sources_of_present_position_refuted`: plasma particles outside of the grid keep
  the sources of an earlier position.
* `C63_cubic_edge_refuted`: the Ruyten correction is off in the outermost cells.
* `C65_plasma_refuted`: an unknown particle shape is silently ignored for the plasma.
* `C70_combined_refuted`, `C70_resonant_refuted`, `C70_sextupole_dipole_refuted`: the
  second-order map is wrong in combined-function magnets.
* `C75_refuted`: backward tracking in transfer map elements uses the forward maps.
* `C77_longitudinal_refuted`, `C79_undriven_refuted`: the potential of a parabolic
  column beyond its edge; an undriven plasma is not free of fields.
* `C88_no_bunch_fields_refuted`, `C88_axis_refuted`: `beam_wakefields=False` does not
  remove the bunches from B_theta and E_r; the current in the first ring is doubled.
* `C92_envelope_units_refuted`, `C92_last_wins`: the dimensionless envelope is written
  with units; with two wakefields the second overwrites the meshes of the first.
* `C95_threads_restored_refuted`: the number of threads is restored only if tracking
  ends without exception.
* `C09_exact_arrival_refuted`, `C96_last_output_refuted`: float32 comparisons of times;
  the last output can be lost.

Seen while modelling and stated in comments or in the lemmas of the area:

* Gathering from a grid divides by the radius of the particle, so a particle on the
  axis raises ZeroDivisionError.
* The setter of the charge of a bunch changes the sign of the weights if charge and
  species charge have opposite signs.
* Integer densities and integer parabolic coefficients raise ValueError.
* Any `ramp_type` other than `'upramp'` is a downramp.
* A beamline with two or more bunches concatenates the per-element lists.
* `adjust_dt` applied twice can add an update in binary64.
* The time step of the laser solver is that of the first initialisation.
* The default list `external_fields=[]` is shared between elements.
* Saving and reading a bunch loses its propagation distance.
* `calculate_psi_and_derivatives`, `calculate_ai_bi_from_edge` and `initialize_coord`
  are never called.
* Deposition loops use `prange` in functions compiled without `parallel`; compiled
  with it they would race (`C94_shared_cell`).

## Assumptions per theorem

Output of `Print Assumptions` for every theorem named in `MANIFEST.json`, grouped.
All are axioms of the Coq standard library.

### Closed under the global context (84 theorems)

`C01_tracking_terminates` `C01_tracking_terminates_float32` `C02_bunch_pushed_over_whole_element`
`C02_unsynchronised_long_step_refuted` `C03_own_steps_have_requested_length` `C03_pushes_tile_the_interval`
`C04_output_times` `C05_one_output_list_per_bunch` `C05_outputs_are_synchronous` `C06_events_in_order`
`C06_log_explains_state` `C06_start_of_the_log` `C07_field_update_times` `C08_even_updates`
`C08_not_forced_untouched` `C08_readjusting_changes_nothing` `C09_exact_arrival_refuted`
`C09_float32_arrival_error` `C09_float32_monotone` `C09_rounded_arrival` `C09_rounded_order`
`C09_rounded_outputs` `C102_advances_to_the_end` `C102_hidden` `C102_left_open` `C102_no_effect`
`C102_positions` `C102_text` `C103_constructor` `C105_analysis_is_a_dict` `C105_missing`
`C105_new_h5py_refuted` `C105_round_trip` `C105_saved` `C10_zero_outputs` `C10_zero_outputs_accepted_refuted`
`C115_pushes` `C11_every_bunch_its_own_step` `C11_one_step_for_all` `C11_shape_of_the_result`
`C11_single_bunch_is_a_list` `C11_track_returns` `C11_wrong_number_of_steps` `C12_beamline_concatenation`
`C12_beamline_visits_in_order` `C12_nested_beamline` `C12_number_of_entries` `C13_duplicate_names_rejected`
`C13_duplicate_names_when_tracking` `C13_iterations_without_gaps` `C13_times_along_a_beamline`
`C13_written_iteration` `C16_phase_space_rows` `C16_set_phase_space` `C39_plasma_refuted` `C49_outputs`
`C49_rounding_refuted` `C60_all_names_distinct_refuted` `C60_automatic_names_are_distinct` `C76_created`
`C76_laser_density` `C76_last_update` `C76_rounding_refuted` `C76_synchronous` `C92_envelope_units_refuted`
`C93_units` `C94_terminates` `C95_beginning` `C95_first_exception` `C95_session`
`C95_threads_restored_refuted` `C95_undisturbed` `C96_arrival` `C96_clear_test` `C96_exact`
`C96_last_output_refuted` `C96_output_count` `C96_terminates` `C96_ticks` `C96_update_count`
`C97_other_bunches_do_not_matter` `C97_tracked_together_as_alone` `C98_outputs_do_not_perturb`
`C98_synchronised_outputs_refuted`

### `sig_forall_dec` (9 theorems)

`C105_bunch` `C14_increase_prop_distance` `C15_copy_of_a_valid_bunch` `C16_matrix_contents`
`C17_reading_charge` `C38_kinds` `C60_given_names_are_kept` `C60_new_bunch` `C93_weighting`

### `functional_extensionality_dep` (1 theorems)

`C94_any_schedule`

### `sig_forall_dec`, `functional_extensionality_dep` (86 theorems)

`C105_species_refuted` `C107_reordering` `C107_splitting` `C108_adjusted` `C110_bunch_ahead` `C118_alone`
`C118_lists` `C118_no_fields` `C15_all_attributes_refuted` `C16_bunch_matrix_round_trip`
`C17_reading_and_assigning_charge` `C18_no_charge` `C18_reposition` `C25_any_field_first`
`C25_azimuthal_field_adds` `C25_order_and_old_contents_do_not_matter` `C25_quadrupole_adds`
`C25_superposition` `C27_exact` `C27_regrid` `C27_same_grid` `C32_equal_tail` `C32_last_row` `C32_refuted`
`C32_rows_partial` `C32_small_refuted` `C33_init_ahead` `C33_init_early` `C33_init_once` `C33_init_values`
`C33_params` `C33_rejected` `C33_same_params` `C34_mismatch` `C34_sum` `C36_first` `C36_length`
`C36_multiples` `C36_small_jumps` `C36_smooth` `C42_at_rest_refuted` `C43_ab5` `C46_bounded` `C46_edge`
`C46_edge_precision` `C46_edge_terminates` `C46_precision` `C46_terminates` `C47_column` `C47_extent`
`C50_number` `C54_centred` `C54_centred_bunch` `C54_distance_refuted` `C54_fails` `C54_one` `C54_other_format`
`C54_others` `C54_positions` `C54_read` `C54_round_trip` `C56_custom_blowout` `C59_openpmd_data`
`C62_sources_inside` `C62_sources_of_present_position_refuted` `C67_modes` `C72_interpolation` `C73_histogram`
`C73_range` `C81_gradient` `C81_intensity` `C81_sources` `C82_rings` `C82_start` `C84_fails` `C84_keys`
`C84_lengths` `C84_list` `C84_list_done` `C85_method` `C88_axis_refuted` `C88_uniform_current`
`C91_coefficient` `C93_same_name` `C93_species` `C94_shared_cell`

### `sig_forall_dec`, `sig_not_dec`, `functional_extensionality_dep` (176 theorems)

`C100_empty_element_is_free_flight` `C101_magnets_keep_the_energy` `C103_filter` `C103_moves_with_the_grid`
`C103_smooth_edges` `C103_values` `C104_after_reset_refuted` `C104_emptied` `C104_fixed_on_entry`
`C104_latest_settings` `C106_automatic_steps` `C106_axisymmetric_fields` `C106_quadrupole_refuted`
`C106_rotations` `C107_automatic_steps` `C108_push` `C108_push_raises` `C108_superposition` `C114_conditions`
`C115_divided_element` `C115_number_of_outputs` `C115_time_dependent_refuted` `C115_tracking_is_stepping`
`C117_element_fields_are_differentiable` `C118_documented_example_refuted` `C118_external_fields`
`C118_library_fields` `C119_circle` `C119_momentum_gain` `C120_rk4_changes_it` `C122_gain_limit`
`C122_gain_limit_rk4` `C122_ion_column` `C122_limit_is_attained` `C14_empty_bunch_with_injection`
`C14_fields_after_injection` `C14_free_before_injection` `C14_no_memory_in_scratch_arrays`
`C14_propagation_distance` `C14_rk4_and_boris` `C14_unknown_pusher` `C15_copy_is_independent`
`C16_alternative_matrix_written_back` `C16_alternative_round_trip_refuted`
`C16_alternative_round_trip_without_spread` `C19_boris_magnetic_fields_do_no_work` `C20_boris_free_push`
`C20_boris_free_steps_add_up` `C21_boris_injective` `C21_boris_time_reversal` `C22_boris_electric_kick`
`C23_rk4_free_drift` `C23_rk4_is_the_classical_method` `C24_boris_particles_independent`
`C24_rk4_particles_independent` `C25_blowout_fields_refuted` `C26_between` `C26_continuous` `C26_exact`
`C26_gathering_adds` `C26_grid_point` `C26_inside` `C26_on_axis_refuted` `C26_outside` `C26_scalar`
`C26_towards_axis` `C28_beam` `C28_plasma` `C29_cubic_refuted` `C29_guards_partial` `C29_in_bounds`
`C29_linear_refuted` `C29_outside` `C29_plasma_guards_partial` `C29_plasma_in_bounds` `C30_append` `C30_order`
`C30_plasma_order` `C30_scaling` `C31_linear_refuted` `C31_longitudinal` `C31_plasma_longitudinal`
`C31_plasma_radial` `C31_radial` `C37_identity` `C37_particles` `C41_fields` `C41_lens_alone`
`C41_lens_no_density` `C41_lens_wakefields` `C41_linear_dt` `C41_linear_dt_infinite` `C41_quadrupole`
`C41_stage_dt` `C41_stage_dt_monotone` `C41_stage_dt_refuted` `C41_supported` `C48_field` `C48_linear`
`C48_order` `C48_rotation` `C48_total` `C49_clear_partial` `C49_clear_refuted` `C50_counts` `C50_matched`
`C50_size` `C50_twiss` `C50_when` `C51_inverse` `C51_same` `C51_sizes` `C52_back` `C52_backward`
`C52_coordinates` `C52_mean` `C52_round_trip` `C53_compose` `C53_direction` `C53_inverse` `C53_lengths`
`C55_plasma_lens_field` `C55_positive_gradient_focuses_electrons_in_x` `C55_quadrupole_force` `C56_ion_column`
`C56_simple_blowout` `C57_boris_is_the_centred_lorentz_force` `C58_scratch_arrays_follow_the_bunch_refuted`
`C61_bunches_on_the_same_arrays_move_together` `C61_caller_arrays_unchanged_refuted` `C64_beam` `C64_plasma`
`C65_beam` `C65_plasma_refuted` `C68_bounds` `C68_decreasing` `C68_dispersion` `C68_vacuum` `C72_distance`
`C72_long_range` `C72_start` `C74_coordinates` `C74_drift` `C74_reference_particle` `C83_gradient`
`C83_length` `C83_matched` `C83_particles` `C83_stays` `C83_twiss` `C83_unmatched` `C85_drivers` `C85_local`
`C85_particles` `C85_phase` `C85_polarization` `C85_solution` `C85_unique` `C86_quiet` `C87_causal`
`C88_laser_only` `C88_no_bunch_fields_refuted` `C88_own_field` `C88_panofsky_wenzel` `C89_points`
`C89_returns` `C89_shape` `C92_felt` `C94_beyond` `C94_boris` `C94_executions` `C94_gather_field` `C94_grid`
`C94_loops_own` `C94_rk4` `C99_tracking_keeps_particles_and_weights`

### `sig_forall_dec`, `sig_not_dec`, `classic`, `functional_extensionality_dep` (168 theorems)

`C09_rounding_is_binary32` `C103_edge_factor` `C106_turned_run` `C107_same_distribution_same_run`
`C108_adjusted_run` `C108_analytical_only` `C108_update` `C109_any_test_bunch` `C109_test_bunch`
`C110_bunch_behind` `C110_causality` `C111_duration` `C111_flattened` `C111_gaussian` `C111_mode` `C111_modes`
`C112_flattened` `C112_single` `C112_sum` `C113_divided` `C113_order` `C114_analytical_elements`
`C114_analytical_elements_float32` `C116_element_fields_are_regular` `C116_motion_is_unique`
`C116_rk4_fourth_order` `C116_second_order` `C116_tracking_converges` `C117_boris_preserves_volume`
`C117_rk4_changes_volume` `C117_tracking_preserves_volume` `C118_linear_lists` `C119_exact_motion`
`C119_phase` `C120_angular_momentum` `C120_axis` `C120_plane` `C121_slippage` `C121_speed_limit`
`C33_evolve_early` `C33_grid_change_refuted` `C33_output` `C33_scheme` `C34_polarisation_refuted` `C35_levels`
`C35_substeps` `C36_angle` `C37_compose` `C37_determinant` `C37_track` `C38_csr` `C38_defined` `C38_end`
`C38_independent` `C38_initial_refuted` `C38_none` `C38_outputs` `C39_history_partial` `C39_kept_energy`
`C39_refuted` `C40_custom` `C40_decay_length` `C40_documented_name_refuted` `C40_downramp` `C40_flat`
`C40_mirror` `C40_missing` `C40_ramp_type_refuted` `C40_shape` `C40_unknown_name` `C41_ramp` `C42_column`
`C42_positive` `C42_slices` `C43_nonneg` `C43_path` `C43_rk4` `C43_slices` `C43_symmetric` `C44_ab5` `C44_rk4`
`C45_bounds` `C45_continuous` `C45_gauss` `C45_grid` `C45_guards` `C45_other_slices` `C45_outside`
`C45_particles` `C45_storage` `C46_field` `C46_quiet` `C46_unique` `C47_neutral` `C47_neutral_refuted`
`C47_quiet` `C49_arc` `C49_points` `C49_ranges` `C49_steps` `C49_table` `C63_cubic_edge_refuted`
`C63_cubic_partial` `C63_linear` `C66_centered_partial` `C66_first_partial` `C66_phase` `C67_flattened`
`C67_flattened_0` `C67_flattened_modes` `C67_gaussian` `C67_laguerre` `C67_peak` `C69_causality`
`C70_combined_error` `C70_combined_refuted` `C70_compose` `C70_equations_partial` `C70_hamilton` `C70_initial`
`C70_resonant_refuted` `C70_sextupole_dipole_refuted` `C70_sextupole_error` `C71_equations` `C71_symplectic`
`C72_kernel` `C72_short_range` `C73_between` `C73_charge` `C73_defined` `C73_energy_only` `C73_smoothing`
`C73_straight` `C73_value` `C74_split` `C74_trajectory` `C75_backward` `C75_refuted` `C77_longitudinal`
`C77_longitudinal_refuted` `C78_causal` `C79_undriven_refuted` `C80_points` `C80_pusher` `C80_shape`
`C80_total` `C81_fields` `C81_panofsky_wenzel` `C82_column` `C82_electrons` `C82_slice` `C85_plasma_frequency`
`C90_memoryless` `C90_steady_fluid` `C90_steady_qs` `C90_total_fluid` `C90_total_qs` `C90_updates`
`C91_no_driver` `C91_no_laser` `C91_phase` `C91_polarization` `C91_size` `C92_last_wins` `C92_meshes`
`C96_rounding_is_binary64` `C96_rounding_to_nearest` `C99_whole_simulations`
