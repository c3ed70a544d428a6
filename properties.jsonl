{"id": "C01", "title": "Parallel loop covers the index range", "statement": "multi_threads_loop(total, T, task) with T>=1 hands its T workers half-open ranges that lie inside [0,total) and never overlap, so no index is processed twice or out of range. Together they cover every index exactly when total mod T = 0 or total/T > total mod T (integer division); in every other case (for example total=3,T=2, and every total<T) precisely the trailing total mod T indices are never handed to any worker. T=0 divides by zero.", "quantifier": "all totals and all thread counts", "why_tests_cant": "The gap only appears for particular remainder/quotient combinations; a test samples a few (total,T) pairs while the claim is about all of them.", "anchors": ["src/multi-thread/multi-thread.hpp:multi_threads_loop"]}
{"id": "C02", "title": "Thread pool runs accepted tasks FIFO, at most once, in a bounded queue", "statement": "In every interleaving of any number of committers and workers of ThreadPool: tasks are taken from the queue in the order their commits succeeded, no task is started twice, no task is started that was not committed, an accepted task is always either started or still queued, and the queue never holds more than max_tasks+1 entries; a commit is refused exactly when the pool is stopped or the queue already holds more than max_tasks entries; no worker ever takes a task from an empty queue.", "quantifier": "all schedules of committers, workers and the destructor, all task counts", "why_tests_cant": "Interleavings are unbounded and scheduler dependent; tests see a handful of schedules.", "anchors": ["src/multi-thread/thread_pool.h:ThreadPool::ThreadPool,ThreadPool::commit,ThreadPool::~ThreadPool"]}
{"id": "C03", "title": "Thread pool destruction", "statement": "Once the pool's destructor has raised the stop flag no further queued task is started: accepted tasks still queued are discarded. Moreover destruction can block for ever: because the flag is raised without holding the mutex, there is a schedule in which a worker that has just seen 'not stopped, queue empty' goes to sleep after the only notification, and from that state no step of any thread lets the destructor's join return. If instead the flag is raised while the worker is not between its check and its wait, every worker can exit.", "quantifier": "all schedules", "why_tests_cant": "The lost wake-up is a window of a few instructions; a test that does not hit the window passes.", "anchors": ["src/multi-thread/thread_pool.h:ThreadPool::~ThreadPool"]}
{"id": "C04", "title": "Output pipe loses nothing and keeps order", "statement": "For Opip/Costream with its stop flag initialised before its worker thread runs: in every interleaving of producers, the writer thread and the destructor, the sequence written to the file is at every moment a prefix of the sequence of pushed values, and when the destructor returns it equals the whole pushed sequence. Because the class declares the thread before the flag, the worker may read the flag before it is initialised; if it reads true, values pushed afterwards are never written although the destructor returns normally.", "quantifier": "all schedules, all pushed sequences", "why_tests_cant": "Depends on interleavings and on an uninitialised read that usually happens to be benign.", "anchors": ["src/multi-thread/ciostream.hpp:Opip"]}
{"id": "C05", "title": "Input pipe delivers the file in order", "statement": "For Ipip/Cistream: in every interleaving, the values handed to readers, in the order they are handed out, are a prefix of the records parsed from the file, none duplicated or skipped. When a file ends with white space after its last record, one extra record (from a failed extraction) is delivered after the real ones. Because the end-of-input flag's initialiser runs after the loader thread is started, there is a schedule in which the loader finishes first and its end-of-input mark is overwritten; a reader then blocks for ever.", "quantifier": "all schedules, all files", "why_tests_cant": "The overwritten flag and the extra record need a particular schedule/file ending; the order claim ranges over all interleavings.", "anchors": ["src/multi-thread/ciostream.hpp:Ipip"]}
{"id": "C06", "title": "Concurrent file records are atomic", "statement": "When several threads write records through copies of one ConcurrentFile, for every schedule the resulting byte stream is a concatenation of whole records, each written exactly once, with the records of each thread in that thread's program order.", "quantifier": "all schedules, all record contents, all thread counts", "why_tests_cant": "Atomicity must hold for every interleaving of the character-level writes.", "anchors": ["src/multi-thread/multi-thread.hpp:ConcurrentFile,operator<<"]}
{"id": "C07", "title": "Callback protocol of Simulator::run", "statement": "For every integrator, particle state, registered callback list and stop condition: a run that returns has performed, in order, all start callbacks once; then k rounds, each consisting of every operation callback (in registration order, seeing the state before the step and the step about to be taken) followed by exactly one integration step; then every operation callback once more; then all stop callbacks once. So operations are invoked exactly k+1 times for k steps. If the step scale of the initial state is zero, run performs no callback and no step at all; if neither an end time nor a stop condition is set it aborts before any callback.", "quantifier": "all step functions, callbacks, stop conditions, initial states and run lengths", "why_tests_cant": "The number and order of callbacks must hold for every run length and stop pattern.", "anchors": ["src/simulator.hpp:Simulator::run,Simulator::advance_one_step,RunArgs"]}
{"id": "C08", "title": "Stop conditions", "statement": "The run loop ends as soon as either the relative distance to the end time is within the tolerance or any registered stop condition returns true on the current state; conditions are evaluated in registration order, evaluation stops at the first true one, and none is evaluated once the end time is reached. No integration step is ever taken from a state in which some stop condition holds or the end time is reached, and a run that returned without the end time being reached ended in a state where some condition holds.", "quantifier": "all states, condition lists and histories", "why_tests_cant": "Ranges over all histories of states the integrator can produce.", "anchors": ["src/simulator.hpp:RunArgs::check_stops,Simulator::run"]}
{"id": "C09", "title": "End time is reached and never overshot", "statement": "With a constant-step iterator (each step advances time by exactly the requested step), unit step scale, positive step h and start<end: the time never exceeds the end time in any reachable state of the run, strictly increases, and without stop conditions the run returns after at most ceil((end-start)/h) steps with |t-end| <= rtol*|end|.", "quantifier": "all starts, ends, steps and tolerances", "why_tests_cant": "A termination and bound claim over all real parameters.", "anchors": ["src/simulator.hpp:Simulator::run", "src/ode-iterator/const-iterator.hpp"]}
{"id": "C10", "title": "Backward or degenerate end times", "statement": "If the start time lies beyond the end time, run only warns; with a positive constant step small enough not to exceed the remaining interval every step increases the distance to the end time, so the loop condition stays true for ever and without stop conditions run never returns.", "quantifier": "all starts beyond the end, all steps, all numbers of iterations", "why_tests_cant": "Non-termination cannot be observed by a test, only suspected.", "anchors": ["src/simulator.hpp:Simulator::run"]}
{"id": "C11", "title": "StepSlice fires every n-th call", "statement": "A StepSlice callback with interval n>=1 invokes its operation on exactly the calls numbered 0, n, 2n, ... and on no other; after m calls it has fired ceil(m/n) times. An interval of 0 is undefined behaviour (modulo zero).", "quantifier": "all intervals, all call counts", "why_tests_cant": "Unbounded call histories.", "anchors": ["src/args-callback/callbacks.hpp:StepSlice"]}
{"id": "C12", "title": "TimeSlice firing rule", "statement": "For every monotone sequence of call times, a TimeSlice over [start,end] with n output slots: the i-th firing (from 0) happens at a time t with start+i*interval <= t <= end; it fires on a call iff the next unfired slot is at or before t and t<=end; it never fires more than once per call, so with coarse steps slots are served late, one per call; and it fires at most n+1 times.", "quantifier": "all call-time sequences, all slice parameters", "why_tests_cant": "The catch-up behaviour depends on the whole history of call times.", "anchors": ["src/args-callback/callbacks.hpp:TimeSlice"]}
{"id": "C13", "title": "LogTimeSlice schedule", "statement": "Let L = end-start. When a LogTimeSlice call that fires returns, the next slot lies strictly after the time just served. If L>1, after every history every call returns and the operation fires at most n times. If the slot ratio L^(1/n) is at most 1, a call whose time is at or after the pending slot and at most end never returns (for L=1 the call at t=end never returns); for 0<L<1 and n>=2 the operation never fires. reset_slice_params does not move the origin of the slots.", "quantifier": "all parameters and call times", "why_tests_cant": "Non-termination for a parameter region; unbounded histories.", "anchors": ["src/args-callback/callbacks.hpp:LogTimeSlice"]}
{"id": "C14", "title": "Writers: header once, energy reference", "statement": "DefaultWriter emits the column header exactly once, before the first row, for every number of calls, and one block per call. EnergyErrWriter keeps its reference energy in a function-local static shared by every instance of the same instantiation: the first call of any instance fixes the reference, so a second simulation reports errors relative to the first simulation's energy.", "quantifier": "all call histories over all instances", "why_tests_cant": "Requires reasoning over histories that mix instances.", "anchors": ["src/args-callback/callbacks.hpp:DefaultWriter,EnergyErrWriter"]}
{"id": "C15", "title": "Chain index is a permutation", "statement": "For every n>=2 and every set of positions (including coincident particles, and any tie-breaking by the sort), calc_chain_index returns an index array that contains each of 0..n-1 exactly once, and all its array accesses are in bounds.", "quantifier": "all particle numbers, all positions, all sort tie-breakings", "why_tests_cant": "Must hold for every distance ordering; n! orderings.", "anchors": ["src/particle-system/chain.hpp:Chain::calc_chain_index,create_index_from_dist_array"]}
{"id": "C16", "title": "Chain links the closest pair first", "statement": "The closest pair of particles is always adjacent in the chain, and each insertion takes the closest remaining pair that touches an end of the chain among the candidates scanned. The candidate scan restarts one entry late after each insertion, so the second-closest pair is skipped whenever it only becomes attachable later: the chain is not the greedy nearest-neighbour chain (witness).", "quantifier": "all distance orderings", "why_tests_cant": "The deviation needs a specific ordering; the adjacency claim ranges over all.", "anchors": ["src/particle-system/chain.hpp:create_index_from_dist_array"]}
{"id": "C17", "title": "Chain/Cartesian round trip", "statement": "For every index permutation and every coordinate array of length n>=1, converting Cartesian to chain coordinates and back returns the original array exactly (real arithmetic), and converting chain coordinates to Cartesian and back returns the chain coordinates.", "quantifier": "all n, permutations and coordinates", "why_tests_cant": "All permutations and lengths.", "anchors": ["src/particle-system/chain.hpp:Chain::calc_chain,Chain::calc_cartesian,to_chain,to_cartesian"]}
{"id": "C18", "title": "Re-indexing the chain preserves the physical state", "statement": "For every old and new index permutation, update_chain applied to the chain coordinates of a configuration yields exactly the chain coordinates of the same configuration under the new index; hence Cartesian positions and velocities are unchanged.", "quantifier": "all pairs of permutations, all n, all coordinates", "why_tests_cant": "n!^2 index pairs.", "anchors": ["src/particle-system/chain.hpp:Chain::update_chain,get_new_node"]}
{"id": "C19", "title": "Chain evaluation of pair quantities agrees with direct evaluation", "statement": "For every n>=2, index permutation and configuration whose chain coordinates are consistent with its positions, the chain-based loops visit every unordered particle pair exactly once with the true separation vector; hence chain-based potential energy and chain-based accelerations (Newtonian, tidal, post-Newtonian) equal their direct pairwise counterparts (given exchange-symmetric pair terms). For n=1 the chain loops' bound size-2 wraps around and they index out of bounds.", "quantifier": "all n, permutations, configurations and pair interactions", "why_tests_cant": "All permutations and sizes.", "anchors": ["src/interaction/newtonian.hpp:NewtonianGrav::add_acc_to", "src/core-computation.hpp:calc_potential_energy", "src/interaction/tidal.hpp", "src/interaction/post-newtonian.hpp"]}
{"id": "C20", "title": "Newtonian accelerations obey Newton's third law", "statement": "For all masses and non-coincident positions the accelerations added by NewtonianGrav satisfy sum m_i a_i = 0 and sum m_i x_i cross a_i = 0, equal the sum over the other particles of m_j (x_j-x_i)/|x_j-x_i|^3, are unchanged by translating all positions, and are added to (never overwrite) the caller's array.", "quantifier": "all particle numbers, masses, positions", "why_tests_cant": "Universal over configurations and sizes.", "anchors": ["src/interaction/newtonian.hpp:NewtonianGrav::add_acc_to"]}
{"id": "C21", "title": "Interaction list composition", "statement": "For every list of force terms: the total acceleration equals the internal term plus all extra terms; the extra acceleration equals the velocity-dependent part plus the velocity-independent part, each listed force is applied exactly once in exactly one of the two parts according to its vel_dependent flag, and the result does not depend on the previous contents of the output array; when a part is empty the array passed for it is left as passed.", "quantifier": "all force lists, particle states and output buffers", "why_tests_cant": "All force combinations.", "anchors": ["src/interaction/interaction.hpp:Interactions::eval_acc,eval_extra_acc,eval_extra_vel_dep_acc,eval_extra_vel_indep_acc,eval_newtonian_acc"]}
{"id": "C22", "title": "Tidal force conserves momentum and angular momentum", "statement": "For all masses (non-zero), radii, apsidal constants, lag times, positions and velocities, the tidal accelerations satisfy sum m_i a_i = 0 and sum m_i x_i cross a_i = 0; particles with zero apsidal constants exchange no tidal force.", "quantifier": "all configurations and sizes", "why_tests_cant": "Universal over configurations.", "anchors": ["src/interaction/tidal.hpp:Tidal::add_acc_to"]}
{"id": "C23", "title": "Post-Newtonian terms are symmetric under particle exchange", "statement": "Listing the particles in a different order only permutes the accelerations for the 1PN and 2.5PN terms (each pair term is invariant under exchanging its two particles). The 2PN term is not: its reaction coefficient uses the other body's radial velocity in one place, so swapping two particles changes the result (witness).", "quantifier": "all pairs, masses, positions and velocities", "why_tests_cant": "The asymmetric term vanishes for many configurations.", "anchors": ["src/interaction/post-newtonian.hpp:PN1,PN2,PN2p5"]}
{"id": "C24", "title": "Gas drag never accelerates", "statement": "For non-negative drag coefficients the static gas drag acceleration of every particle is anti-parallel to its velocity (its power is never positive); the disk-capture drag of star i is anti-parallel to its velocity relative to the disk gas and is balanced by an opposite force on particle 0, so the sum of m_i a_i it adds is zero. The capture disk's gas is the unique circular counter-clockwise Keplerian flow about particle 0, its density M/(2 pi R^3) exp(-z^2/2H^2) with H^3*2 M Omega = Mdot R^3, and moving or boosting the whole system does not change the drag.", "quantifier": "all configurations", "why_tests_cant": "Universal over configurations.", "anchors": ["src/interaction/static-gas-drag.hpp", "src/interaction/disk-capture-star.hpp", "src/interaction/alpha-disk.hpp"]}
{"id": "C25", "title": "Symplectic schemes conserve momentum", "statement": "Any sequence of drift and kick operations on the simple and the chain system with Newtonian forces conserves total linear momentum and total angular momentum exactly (real arithmetic) and moves the centre of mass uniformly; in particular every symplectic integrator (orders 2-10, any step) does.", "quantifier": "all particle numbers, states, step sequences", "why_tests_cant": "Conservation over all trajectories.", "anchors": ["src/particle-system/base-system.hpp:SimpleSystem::drift,kick", "src/integrator/symplectic/symplectic-integrator.hpp"]}
{"id": "C26", "title": "Symplectic integrators are time reversible", "statement": "For every symplectic integrator (DKD, KDK, 4th, 6th, 8th, 10th), every step h and every state, integrating by h and then by -h returns exactly the initial state (positions, velocities, auxiliary velocities and time), for any position-dependent force and also with velocity-dependent forces handled through auxiliary velocities.", "quantifier": "all states, steps and force functions", "why_tests_cant": "Universal over states and forces.", "anchors": ["src/integrator/symplectic/symplectic-integrator.hpp", "src/particle-system/base-system.hpp:SimpleSystem::kick,drift"]}
{"id": "C27", "title": "Integrators advance time by the step", "statement": "One step of each symplectic integrator with step h advances the system time by h times the sum of its drift coefficients; that sum and the sum of the kick coefficients is exactly 1 for orders 2 and 4, and equals 1 up to less than 1e-14 for the decimal literals of orders 6, 8 and 10. The coefficient sequences are palindromic.", "quantifier": "all steps and states", "why_tests_cant": "Universal over states; literal-level identity.", "anchors": ["src/integrator/symplectic/symplectic-integrator.hpp"]}
{"id": "C28", "title": "Scalar-array serialisation round trip", "statement": "For the simple, chain, regularised and AR-chain systems, with and without velocity-dependent forces: reading back the array written from a system restores time, positions, velocities, auxiliary velocities, omega and binding energy exactly, leaves masses and ids alone, and the array has length variable_number(); reading an array of any other length aborts without changing the system.", "quantifier": "all particle numbers and states", "why_tests_cant": "All sizes and states; offset arithmetic.", "anchors": ["src/particle-system/base-system.hpp:SimpleSystem::write_to_scalar_array,read_from_scalar_array", "src/particle-system/chain-system.hpp", "src/particle-system/regu-system.hpp", "src/particle-system/archain.hpp"]}
{"id": "C29", "title": "Accumulated increments equal the state difference", "statement": "Integrating with increment collection: the collected increment added to the initial scalar array equals the scalar array of the final state, for every sequence of drifts and kicks between clearing and reading the increment.", "quantifier": "all operation sequences and states", "why_tests_cant": "All histories.", "anchors": ["src/particle-system/base-system.hpp:SimpleSystem::sync_*,write_to_scalar_array", "src/ode-iterator/Bulirsch-Stoer.hpp:integrate_by_n_steps"]}
{"id": "C30", "title": "Binding-energy derivative", "statement": "In the regularised system with LogH and external forces, the binding-energy rate used by kick is minus the power of the external accelerations only, while the rate reported by evaluate_general_derivative is minus the power of the total (Newtonian plus external) acceleration; the two disagree whenever the Newtonian power is non-zero (witness).", "quantifier": "all states and forces", "why_tests_cant": "Only visible for one integrator/regularisation combination.", "anchors": ["src/particle-system/regu-system.hpp:evaluate_general_derivative,kick,calc_dbindE_dt", "src/particle-system/archain.hpp"]}
{"id": "C31", "title": "Bulirsch-Stoer extrapolation is polynomial extrapolation", "statement": "The in-place extrapolation table computes, after row k, the value at zero of the unique polynomial of degree <= k in the squared sub-step through the k+1 results; so if the sub-step results are exactly a polynomial of degree <= k in the squared sub-step, the extrapolated value is its exact value at zero.", "quantifier": "all k up to the maximum depth, all data", "why_tests_cant": "Universal over data and depth.", "anchors": ["src/ode-iterator/Bulirsch-Stoer.hpp:extrapolate,BulirschStoerConsts"]}
{"id": "C32", "title": "Bulirsch-Stoer accept/reject discipline", "statement": "For every underlying system, error estimator and step controller: when a step is accepted the particles hold the input array plus the extrapolated increments of some tried step, computed by runs that all start from the input state; the estimated error of the accepted row is <= 1; for the plain system time advanced by exactly the tried step; if all rows are rejected the iterator aborts; the very first call accepts the first row within tolerance with the unchanged step or aborts.", "quantifier": "all error sequences, states, integrators", "why_tests_cant": "All error histories.", "anchors": ["src/ode-iterator/Bulirsch-Stoer.hpp:BulirschStoer::iterate"]}
{"id": "C33", "title": "Bulirsch-Stoer rank bounds", "statement": "From the initial rank, while the first call does not converge only at the last row, the ideal rank stays within [1, max-1] and every table index stays in bounds in all error histories (calls return or abort). If the very first step converges only at the last row, the rank becomes max and the next call indexes past the tables (witness history for every depth).", "quantifier": "all error histories", "why_tests_cant": "Needs a specific history of convergence results.", "anchors": ["src/ode-iterator/Bulirsch-Stoer.hpp:set_next_iteration,iterate,get_next_step_len"]}
{"id": "C34", "title": "Bulirsch-Stoer on plain ODE functions advances time by the step", "statement": "The function-based iterate adds sub-steps of every row tried to the time in addition to the final step: when row k is accepted at the first attempt, time has advanced by (k+2) times the step instead of once, and every failed attempt moves the time too. The data returned are the polynomial extrapolation of the tried rows, row j started j steps late; a right-hand side integrated exactly by every row returns exactly that solution over one step. An iterator that serves functions only never clears its first-step flag, so it never shortens the step however large the error: it retries the same step or gives up. Hence even for y' = c the returned data and time disagree (data one step ahead, time at least three).", "quantifier": "all steps and accepted rows", "why_tests_cant": "Universal; hidden for autonomous right-hand sides.", "anchors": ["src/ode-iterator/Bulirsch-Stoer.hpp:iterate(Callable),integrate_by_n_steps"]}
{"id": "C35", "title": "PID step controller limits", "statement": "For every history of set_* calls, every order below 50 and all error values, the factor next_with_limiter returns is NaN or between the limits fixed at construction (1/4 and 4 at order 0, 0.02^(1/order)/4 and 50^(1/order) otherwise); it is the clamped s1*(s2/e)^(1/order) for a positive error e, the upper limit for a zero error, never larger for a larger error, and below 1 for an error above 1 (so a rejected step shrinks). A NaN error is passed on as NaN, orders from 50 on read past the tables, and set_limiter has no effect whatsoever on the results. An infinite error gives the lower limit, also as the newer of two errors; an infinite older error gives the upper limit, two infinite errors NaN.", "quantifier": "all error histories, orders, coefficients", "why_tests_cant": "All error values including extremes.", "anchors": ["src/ode-iterator/step-controller/PID-controller.hpp:next_with_limiter,limiter,set_limiter"]}
{"id": "C36", "title": "Error checkers", "statement": "WorstOffender returns at most 1 iff every component difference is within atol+rtol*scale (also with zero tolerances, for scalar and vector arrays); with a positive absolute tolerance RMS returns at most 1 iff the mean square ratio is at most 1, so each single component is within sqrt(n) tolerances; with zero absolute tolerance RMS ignores components whose reference values are zero, however wrong (witness); MaxRatioError compares the largest difference with the largest tolerance, so it may accept a component far outside its own tolerance (witness).", "quantifier": "all arrays and tolerances", "why_tests_cant": "All arrays.", "anchors": ["src/ode-iterator/error-checker/worst-offender.hpp", "src/ode-iterator/error-checker/RMS.hpp", "src/ode-iterator/error-checker/max-ratio-error.hpp"]}
{"id": "C37", "title": "Sequent iterator result", "statement": "When the refinement of SequentOdeIterator converges at iteration i, the state taken is the finest solution computed, started from the initial state of the call, and the next step is the old one times the controller's factor for that error; when it never converges the state taken is the second finest, not the finest (witness). ConstOdeIterator integrates once and keeps the step.", "quantifier": "all error histories and integrators", "why_tests_cant": "All error histories.", "anchors": ["src/ode-iterator/sequent-iterator.hpp:SequentOdeIterator::iterate"]}
{"id": "C38", "title": "Compensated summation", "statement": "Kahan addition with |sum| >= |addend| and Neumaier addition for all operands lose nothing in binary floating point (round to nearest, no overflow/underflow): the stored sum minus the stored compensation equals exactly the old sum plus the compensated addend; hence over any sequence of += the error of the final value is only the rounding of the compensated addends.", "quantifier": "all floating-point operands and sequences", "why_tests_cant": "All operand pairs.", "anchors": ["src/kahan-number.hpp:Kahan::operator+=,Neumaier::operator+=,Klein::operator+="]}
{"id": "C39", "title": "Bisection keeps the root bracketed", "statement": "For a function with a sign change on [low,high], every iteration of root_bisection keeps a sign change in the current interval, which halves each time; for a continuous function the result is within the final tolerance of a root, and when the interval stays away from zero the loop ends.", "quantifier": "all functions, intervals", "why_tests_cant": "All functions.", "anchors": ["src/math.hpp:root_bisection"]}
{"id": "C40", "title": "Euler rotation is a rigid rotation", "statement": "euler_rotate(v,phi,theta,psi) is the composition of the elementary rotations by psi about z, theta about x and phi about z: it preserves inner products, norms and cross products (handedness) for all angles and vectors, the zero rotation is the identity, and rotating by (-psi,-theta,-phi) undoes it.", "quantifier": "all angles and vectors", "why_tests_cant": "Universal.", "anchors": ["src/orbits/orbits.hpp:euler_rotate"]}
{"id": "C41", "title": "orbit_to_coord yields the requested orbit", "statement": "For every orbit with positive mass, semi-latus rectum p>0, eccentricity e>=0 and true anomaly with 1+e cos(nu)>0: the returned relative position has length p/(1+e cos nu), specific angular momentum squared u*p along the textbook orbit normal, specific energy u(e^2-1)/(2p), and eccentricity-vector length e; so calc_a_e, calc_semi_major_axis and calc_eccentricity applied to the result return the requested e and p/(1-e^2). The position and periapsis directions are the opposite of the textbook ones for (Omega,i,omega). calc_angular_momentum is the angular momentum of the pair about its centre of mass (reduced mass times dr x dv).", "quantifier": "all orbit elements", "why_tests_cant": "All angles and elements.", "anchors": ["src/orbits/orbits.hpp:orbit_to_coord,calc_eccentricity,calc_semi_major_axis,calc_a_e"]}
{"id": "C42", "title": "Anomaly conversions are mutually inverse", "statement": "On ellipses the eccentric<->true anomaly conversions satisfy the textbook relations for every angle and invert each other exactly on (-2pi,2pi]; on hyperbolas the eccentric anomaly line corresponds one-to-one to the true anomalies strictly between the asymptotes, beyond which the conversion aborts; likewise on parabolas. The eccentric anomaly returned for a mean anomaly in [-pi,pi] solves Kepler's equation within the solver tolerance (relative eps; eps/(1-e) for |M|<=eps); a mean anomaly outside [-pi,pi] is not reduced and yields about -pi, whatever it is (same for hyperbolas and parabolas beyond the anomaly +-pi). Classification is total and exclusive over real eccentricities; negative ones are rejected by every conversion.", "quantifier": "all eccentricities and anomalies", "why_tests_cant": "All real inputs.", "anchors": ["src/orbits/orbits.hpp:E_anomaly_to_T_anomaly,T_anomaly_to_E_anomaly,M_anomaly_to_E_anomaly,E_anomaly_to_M_anomaly,classify_orbit"]}
{"id": "C43", "title": "move_particles sets the centre of mass exactly", "statement": "For non-zero total mass, move_particles(p,v,...) makes the centre of mass position and velocity exactly p and v, shifts all particles by one common vector (relative positions and velocities unchanged), and leaves masses, potential and internal energy unchanged; the position-only and velocity-only forms leave the other half alone; passing particles one by one equals passing a container; move_to_COM_frame yields zero total momentum and energy equal to E_inner. Moving a cluster onto an orbit about another one and then everything to the common frame realises that orbit: calc_a_e of the two clusters returns its semi-major axis and eccentricity.", "quantifier": "all clusters and targets", "why_tests_cant": "Universal.", "anchors": ["src/orbits/particle-manip.hpp:move_particles,move_to_COM_frame,COM_p,COM_v", "src/core-computation.hpp:calc_com,move_to_com"]}
{"id": "C44", "title": "Cluster helpers", "statement": "E_k, E_p, E_tot are the textbook sums; E_inner is the kinetic energy in the centre-of-mass frame plus potential energy and is invariant under boosts and translations; cluster_size is the largest pairwise distance (the radius, or 0, for a single particle); tidal_factor with sizes is (M2/M1)(R1/d)^3 and its mirror image; tidal_radius solves factor = f. time_to_periapsis of two clusters is the time at the absolute value of the true anomaly, so it cannot tell approaching from receding. The two-cluster overload of tidal_factor without sizes passes the first cluster twice: it never depends on the second cluster's mass or position and evaluates at separation zero, giving infinity (or NaN). For two clusters taken together the energies split as the internal energies plus the relative motion with the reduced mass; the overloads taking particles one by one agree with those taking a container; E_tid is the first-order tidal term; tidal_radius with a given size solves the tidal factor equation for that size.", "quantifier": "all clusters", "why_tests_cant": "Universal.", "anchors": ["src/orbits/particle-manip.hpp:E_inner,cluster_size,tidal_factor"]}
{"id": "C45", "title": "Scattering geometry", "statement": "The hyperbolic orbit built from v_inf, b!=0 and r succeeds iff r is not below its pericentre, and then starts at distance r with energy v_inf^2/2 and angular momentum |b v_inf|, approaching (in) or receding (out); no state with that energy and angular momentum is at distance r otherwise; b=0 aborts. Its pericentre is at most rp iff |b|<=b_max(m,v,rp), equal together; b_max is strictly increasing in rp. tidal_radius is the distance at which the larger of the two tidal factors equals the given factor. incident_orbit of two clusters never aborts for tidal factors up to 0.02 (b!=0), but for larger factors some admissible impact parameters abort. critical_vel is the relative velocity at which the total energy of the two clusters vanishes. The cluster overloads of critical_vel and b_max are those of the clusters' total masses, inner energies and sizes.", "quantifier": "all masses, velocities, impact parameters", "why_tests_cant": "Universal.", "anchors": ["src/scattering/cross-section.hpp:b_max,critical_vel,incident_orbit", "src/orbits/orbits.hpp:Hyperbolic"]}
{"id": "C46", "title": "Kozai-Lidov time-scale", "statement": "ELK_quad_timescale equals the inner mass (code units) times the Kozai-Lidov time-scale formed with orbit::period, because the inner period is computed as 2*pi*sqrt(a^3/G*m) (product instead of quotient); it is right exactly when the inner mass is 1.", "quantifier": "all masses and axes", "why_tests_cant": "Coincides with the right value for unit mass.", "anchors": ["src/secular.hpp:ELK_quad_timescale", "src/orbits/orbits.hpp:period"]}
{"id": "C47", "title": "Structure-of-arrays containers stay consistent", "statement": "For point, finite-size, drag and tide particle containers and every sequence of construct, emplace_back, resize, reserve and clear: all field arrays have length number(); without resize the ids are exactly 0..number()-1 and converting to an array of particles returns what was inserted, in order. After growing by resize the new ids are all zero, so ids need not be unique (witness).", "quantifier": "all operation sequences", "why_tests_cant": "All histories.", "anchors": ["src/particles/point-particles.hpp", "src/particles/finite-size.hpp", "src/particles/drag-particles.hpp", "src/particles/tide-particles.hpp"]}
{"id": "C48", "title": "Sticky collision detection", "statement": "StickyCollision answers true iff some two distinct particles are at a distance not larger than the sum of their radii; it is independent of the order of the particles and of a translation of all of them, and with fewer than two particles it never reports.", "quantifier": "all configurations", "why_tests_cant": "Universal.", "anchors": ["src/args-callback/collision.hpp:StickyCollision"]}
{"id": "C49", "title": "Configuration files", "statement": "For every file that can be opened for reading and writing: a key's value is the text after the first divider of the last non-comment line with that key, with all white space removed; comment and blank lines have no effect; looking up an absent key aborts. A line without divider defines its whole text as both key and value, white space inside values is lost, a file that is readable but not writable aborts, and reading a number from an empty value returns an uninitialised variable (witnesses).", "quantifier": "all files, dividers, keys", "why_tests_cant": "All texts.", "anchors": ["src/tools/config-reader.hpp:ConfigReader"]}
{"id": "C50", "title": "Command line arguments", "statement": "read_command_line assigns the i-th argument to the i-th variable for all argument vectors whose arguments are non-empty and contain no white space, and aborts when the count differs; an argument containing a blank shifts all later ones, an empty argument shifts the later ones and leaves the last variable untouched (witnesses).", "quantifier": "all argument vectors", "why_tests_cant": "All strings.", "anchors": ["src/tools/config-reader.hpp:read_command_line"]}
{"id": "C51", "title": "Timer accumulates active time", "statement": "For every history of start/pause/reset/query events, a Timer used with alternating start and pause since its last reset reports the summed length of its active intervals, in seconds (the documentation says milliseconds), including the open one up to now; queries and pauses of a paused timer change nothing; calling start while active discards the time since the previous start (witness).", "quantifier": "all event histories", "why_tests_cant": "All histories.", "anchors": ["src/tools/timer.hpp:Timer"]}
{"id": "C52", "title": "Random parameter boundaries", "statement": "Whenever Parameter::draw returns a number it lies in [min,max] as last set; draw returns the first such value (or NaN) of its source and returns iff there is one; with the default boundary (the smallest positive normal number instead of the lowest) it never returns for a source producing only non-positive values. Truncated generators return values inside the requested limits only and never NaN. Normal2 returns a point on the ray of the accepted point at squared distance -2 ln(r^2). Logarithm and PowerLaw stay in [low,high] and invert the cumulative distribution of the requested density; for exponents below -1 PowerLaw violates the precondition of uniform_real_distribution.", "quantifier": "all sources and boundaries", "why_tests_cant": "Non-termination and all random streams.", "anchors": ["src/rand-generator.hpp:Parameter,TruncatedNormal,TruncatedMaxwellian,PowerLaw"]}
{"id": "C53", "title": "Gauss-Radau collocation", "statement": "The Gauss-Radau integrator's conversions between Newton (g) and monomial (b) force coefficients are mutually inverse and describe the same polynomial for all coefficient vectors, up to the rounding of the table literals (1e-28 relative); the predictor yields exactly the force polynomial re-expanded about the end of the step for a step q times as long; stage and end states lie on the exact integral of the force polynomial; one corrector pass interpolates the derivatives at the stage states, leaves the state where it was, and at a fixed point the method is collocation at the eight nodes; the quadrature is exact for degree <= 14 (order 15) up to literal rounding.", "quantifier": "all coefficient tables, systems, steps, step ratios and polynomials of degree <= 14", "why_tests_cant": "polynomial identities over all real coefficients; tests sample a few", "anchors": ["src/integrator/Gauss-Radau.hpp:RadauConsts,transform_g2b,transform_b2g,predict_new_B,integrate_to"]}
{"id": "C54", "title": "Regularised time transformation", "statement": "In the regularised systems a drift by h moves every particle by the same physical time step dt that is added to the system time: dt=h/(T+B) for LogH, h/omega for TTL, h without regularisation; everything else is unchanged. A kick by h (velocity-independent forces) changes every velocity by dt=h/(-U) times the total acceleration, leaves clock and positions, advances omega by the power of the Newtonian force (TTL) and the binding energy by minus the power of the external force (LogH), both with the mean of the old and new velocities. A newly built system has B=-E and omega=-U, so that all scales agree. Along the flow of the reported derivative (Newtonian forces) the ratio of the position and velocity scales, (T+B)/(-U) or omega/(-U), is exactly constant.", "quantifier": "all states, steps, regularisations, interactions without velocity-dependent forces; all curves following the derivative", "why_tests_cant": "Universal.", "anchors": ["src/particle-system/regu-system.hpp:Regularization,RegularizedSystem::drift,kick"]}
{"id": "C55", "title": "Magnetised-disk tables: where lookups are defined, exact and sign-preserving", "statement": "For every radius the density, scale height and gas speed are read from inside the tables; at every tabulated radius the tabulated value is returned, outside the end values, and density and height are positive. The friction coefficient is defined for every Mach number except exactly those whose log10 lies in [x0+199*step, 2) (there the program reads past the end of the table, also in binary64: the largest double below 2), is the tabulated value at every table point but the last, Mach/3 below the table and never negative; so whenever the force is computed total momentum is unchanged and every star is decelerated along its velocity relative to the gas. Density continuous in the radius: refuted (the value jumps between table points). Radii are looked up in centimetres of the same astronomical unit the library uses, heights are divided by 1.5e13 (not by that unit).", "quantifier": "all positions, velocities, masses and radii; all Mach numbers; all table points", "why_tests_cant": "The failing argument interval is a few ulps wide, and in-bounds access, sign and jumps concern every real argument between the table points.", "anchors": ["src/interaction/magneto-disk.hpp:MagnetoDisk::interpolate,GDF_I,disk_rho,disk_H,disk_v,add_acc_to"]}
{"id": "C56", "title": "LogH leapfrog conserves two-body energy exactly", "statement": "For two bodies the LogH drift-kick-drift leapfrog conserves energy, momentum, angular momentum and the Laplace-Runge-Lenz vector exactly (real arithmetic), for every step size, as long as the half drift does not land on the other body (and, for unbound pairs, the time scale after the kick stays positive); so any number of steps of any sizes follows the same Kepler orbit, with errors only in the time.", "quantifier": "all two-body states with positive masses, all step sizes, any number of steps", "why_tests_cant": "Exact conservation for all steps.", "anchors": ["src/particle-system/regu-system.hpp:RegularizedSystem::drift,kick", "src/integrator/symplectic/symplectic-integrator.hpp:LeapFrogDKD"]}
{"id": "C57", "title": "Order conditions of the symplectic schemes", "statement": "Every drift coefficient of the composed integrators is half the sum of the neighbouring kick coefficients (within 1e-15), so each is a composition of leapfrog steps; the sums of the 3rd powers of the kick coefficients (orders 4-10), of the 5th (6-10), 7th (8,10) and 9th (10) powers vanish up to the rounding of the literals (below 1e-13 ... 1e-11).", "quantifier": "all coefficient tables; exact rational arithmetic on the literals", "why_tests_cant": "a wrong digit only degrades the convergence order, which floating-point tests with tolerances do not notice", "anchors": ["src/integrator/symplectic/symplectic-integrator.hpp"]}
{"id": "C58", "title": "Bulirsch-Stoer steps conserve momentum", "statement": "With interactions obeying the third law, every accepted Bulirsch-Stoer step on the plain and the regularised systems leaves the total momentum unchanged and moves the centre of mass by momentum times the elapsed physical time, whatever rows, step sizes and rejections occurred (although the extrapolated solution is no longer symplectic).", "quantifier": "all systems, particle numbers, steps, error estimators, controllers, rank histories", "why_tests_cant": "must hold for every extrapolation depth and rejection history", "anchors": ["src/ode-iterator/Bulirsch-Stoer.hpp: iterate, extrapolate", "src/particle-system/base-system.hpp", "src/particle-system/regu-system.hpp"]}
{"id": "C59", "title": "IAS15 step discipline", "statement": "For every system, error checker and controller: when an IAS15 call returns, its last corrector pass started from the array the call was given, with the macro step multiplied by the rejected ratios only; the state left behind lies on that pass's path at the accepted step, and the step returned is the accepted one times the limited ratio. With its own controller a step is accepted iff the error is below 3.4^7 (not 1). Without rejections a call ends within 30 passes; the number of rejections is unbounded, so a call whose error estimate never falls below the threshold does not return.", "quantifier": "all systems, error estimates, controllers, macro steps and iteration counts", "why_tests_cant": "depends on all sequences of accept/reject decisions and on non-termination", "anchors": ["src/ode-iterator/IAS15.hpp: IAS15::iterate, in_converged_window", "src/integrator/Gauss-Radau.hpp: correct, evaluate, predict", "src/ode-iterator/step-controller/PID-controller.hpp"]}
{"id": "C60", "title": "IAS15 runs conserve momentum", "statement": "With forces obeying the third law, any history of IAS15 calls on the plain and the regularised systems conserves total momentum and masses exactly (real arithmetic) and moves the centre of mass by momentum times elapsed physical time, whatever steps were rejected and however incomplete the corrector iterations; on the plain system each call advances the time by exactly the accepted step.", "quantifier": "all particle numbers, states, third-law forces, histories of calls, error estimates and step controllers", "why_tests_cant": "must hold for all histories and non-converged iterations", "anchors": ["src/integrator/Gauss-Radau.hpp: GaussRadau", "src/ode-iterator/IAS15.hpp: iterate", "src/particle-system/base-system.hpp", "src/particle-system/regu-system.hpp"]}
{"id": "C61", "title": "Post-Newtonian terms are the published equations of motion", "statement": "With PN1 and PN2.5 enabled every particle receives from every other particle exactly the 1/c^2 and 1/c^5 accelerations of the published harmonic-coordinate equations of motion; with PN2 this holds for the first-listed particle of each pair, while the second-listed one receives an additional 5 m_i |v_i|^2 (n.(v_j-v_i))/(c^4 r^2) (v_j-v_i) term. On a circular binary the PN2.5 terms remove energy at Peters' rate 32/5 m1^2 m2^2 (m1+m2)/(c^5 r^5).", "quantifier": "all systems of any size with distinct positions, all masses, velocities and speeds of light", "why_tests_cant": "a comparison with the published formula on sample states misses terms that vanish there; the identity must hold for all states", "anchors": ["src/interaction/post-newtonian.hpp:PN1,PN2,PN2p5"]}
{"id": "C62", "title": "Converting an orbit to coordinates and back", "statement": "coord_to_orbit after orbit_to_coord recovers masses, semi-latus rectum, eccentricity, inclination and orbit type for every orbit. Node and true anomaly are recovered for eccentric inclined orbits but the argument of periapsis comes back shifted by pi, so converting there and back again reflects position and velocity through the origin; planar and circular orbits come back rotated in other ways. The round trip is therefore not the identity on coordinates.", "quantifier": "all masses, sizes, eccentricities, orientations and anomalies on the orbit", "why_tests_cant": "The relation between the conversions must hold over a seven-parameter continuum with several branch cuts; samples cannot show that the argument of periapsis is off by pi for every inclined eccentric orbit.", "anchors": ["src/orbits/orbits.hpp: orbit_to_coord, coord_to_orbit"]}
{"id": "C63", "title": "Semi-latus rectum read from a state", "statement": "coord_to_orbit returning an orbit stores |L|^2/u as semi-latus rectum for every non-radial state; the overload filling an existing orbit stores the same number for every state of non-zero energy but NaN for every parabolic state.", "quantifier": "all masses and relative states with non-zero separation and angular momentum", "why_tests_cant": "The two overloads agree on all but a measure-zero set of states, which random tests never hit.", "anchors": ["src/orbits/orbits.hpp: coord_to_orbit (both overloads)"]}
{"id": "C64", "title": "Time to periapsis and period", "statement": "For bound orbits time_to_periapsis(orbit) is the time since periapsis: zero at periapsis and growing with true anomaly at rate r^2/|L| (Kepler's second law, r and L those of orbit_to_coord), reaching half of period(orbit) at apoapsis, and period obeys P^2 G(m1+m2)=4 pi^2 a^3. For parabolic and hyperbolic orbits it is minus that time (time until periapsis), and the overload taking orbit type and mean anomaly returns the opposite sign for them. period aborts for unbound orbits.", "quantifier": "all masses, sizes, eccentricities and true anomalies in (-pi,pi) on the orbit", "why_tests_cant": "The statement is a differential law over a continuum of orbits, and the sign convention changes between orbit types.", "anchors": ["src/orbits/orbits.hpp: time_to_periapsis (both overloads), period, T_anomaly_to_E_anomaly, E_anomaly_to_M_anomaly"]}
{"id": "C65", "title": "Energy and angular momentum diagnostics", "statement": "calc_kinetic_energy, calc_potential_energy, calc_total_energy and calc_total_angular_momentum return the textbook sums, each pair counted once; along every Newtonian motion the total energy and angular momentum have zero derivative. calc_isolated_angular_momentum is the angular momentum about the centre of mass of the group (independent of the position and velocity of the frame; reduced mass times dr x dv for a pair). calc_com is the mass-weighted mean, and move_to_com leaves a zero mean and all differences. calc_fall_free_time is the minimum over pairs. calc_energy_error is the relative energy error.", "quantifier": "all numbers of particles, masses, positions, velocities, motions", "why_tests_cant": "Sums over all pairs of any number of bodies and derivatives along all motions.", "anchors": ["src/core-computation.hpp:calc_kinetic_energy,calc_potential_energy,calc_total_energy,calc_total_angular_momentum,calc_isolated_angular_momentum,calc_com,move_to_com,calc_fall_free_time,calc_energy_error"]}
{"id": "C66", "title": "General derivative is the equation of motion", "statement": "A differentiable curve of system states with fixed masses is a motion (dt/dt=1, dx/dt=v, dv/dt=total acceleration, also for the auxiliary velocities) if and only if the array written by write_to_scalar_array has the derivative returned by evaluate_general_derivative, entry by entry. The same holds for the regularised system in regularised time, and for the chain systems: the array of chain coordinates has the reported derivative exactly when the bodies it describes move that way.", "quantifier": "all interactions, curves of states, times, numbers of particles", "why_tests_cant": "Quantifies over all curves.", "anchors": ["src/particle-system/base-system.hpp:evaluate_general_derivative,write_to_scalar_array"]}
{"id": "C67", "title": "Particle text forms", "statement": "Writing a particle container with << gives one comma-separated line per particle, in index order, whose cell under each name of column_names() is that particle's quantity. Reading a particle with >> returns exactly the values written when they are separated by blanks, but cannot read back the << form: extraction stops at the first comma (witness for point, finite-size, drag and tide particles).", "quantifier": "all particle containers of any length, all number formats whose texts contain no comma or white space", "why_tests_cant": "Ranges over all containers and all number texts.", "anchors": ["src/particles/point-particles.hpp", "src/particles/finite-size.hpp", "src/particles/drag-particles.hpp", "src/particles/tide-particles.hpp", "src/IO.hpp:print_csv", "src/vector/vector3.hpp:operator<<,operator>>"]}
{"id": "C68", "title": "Alpha-disk friction: coefficient, smooth join, switch and sign", "statement": "The friction coefficient is Mach/3 below 0.1 and Ostriker's subsonic and supersonic forms below 1-e^-2 and above 1+e^-2 (Coulomb logarithm 3); above Mach 0.1 it is continuously differentiable, also where the branches are joined; it is never negative. The switch selects friction (1), ram pressure (-1) or both (0). For every system the force is opposite to the star's velocity relative to the gas and total momentum is conserved. The density is symmetric in the plane and falls as exp(-z^2/2H^2). Continuity at Mach exactly 0.1: refuted (the join is extrapolated and exceeds 1 where its neighbours are below 0.04). The gas velocity is the unique circular counter-clockwise Keplerian velocity about particle 0; the scale height satisfies H^3*2 alpha M Omega = Q Mdot R^3; moving or boosting the whole system does not change the force.", "quantifier": "all Mach numbers; all systems, radii and disk parameters with Q >= 0", "why_tests_cant": "Smoothness and sign concern every real Mach number, and the failing Mach number is a single point.", "anchors": ["src/interaction/alpha-disk.hpp:AlphaDisk::add_acc_to,local_Omega_H,disk_rho,disk_v"]}
{"id": "C69", "title": "Orbit constructors: what is accepted, what is stored, what is random", "statement": "A Kepler orbit is built exactly for positive semi-latus rectum and non-negative eccentricity, otherwise the program aborts; masses, p, e and the given angles are stored and the type is the one e implies. An elliptic orbit is built exactly for a > 0 and 0 <= e < 1; the coordinates it starts from have that semi-major axis and eccentricity and its period obeys Kepler's third law. Random angles: the inclination is isotropic (at most t exactly if the draw is at least cos t), node and periapsis are the draws, a random true anomaly is accepted for ellipses only and solves Kepler's equation for the drawn mean anomaly within the solver's tolerance.", "quantifier": "all real arguments, all draws", "why_tests_cant": "The acceptance condition and the stored invariants concern every combination of real parameters and random draws.", "anchors": ["src/orbits/orbits.hpp:KeplerOrbit::KeplerOrbit,Elliptic::Elliptic,Hyperbolic::Hyperbolic,shuffle_i,shuffle_Omega,shuffle_omega,shuffle_nu"]}
{"id": "C70", "title": "Data of registered callbacks: operations remember, stop conditions forget", "statement": "For every run that returns: the calls of one registered operation (one per integration step and one at the end), start callback or stop-point callback form one history - each call finds the callable object as the previous call left it, the first as it was registered, and the final state stays in the run arguments. So an operation registered as StepSlice(op, n) runs op exactly on the calls 0, n, 2n, ... of the run and one registered as a TimeSlice runs exactly as a single TimeSlice object fed with the times of the calls. A stop condition, in contrast, is copied for every check: each evaluation uses the object as it was registered, and the stored object never changes. Consequently a stop condition registered as StepSlice(cond, n) is evaluated on every check (not on every n-th), and one registered as a TimeSlice is evaluated at every check between start and end.", "quantifier": "all particle systems, integrators, registered callable objects with private data, run lengths", "why_tests_cant": "The private state of the callables evolves over unboundedly many calls of runs of any length.", "anchors": ["src/simulator.hpp:RunArgs::check_stops,RunArgs::operations,RunArgs::add_operation,RunArgs::add_stop_condition,Simulator::run", "src/args-callback/callbacks.hpp:StepSlice,TimeSlice"]}
{"id": "C71", "title": "Operations of a concurrent file take effect one at a time", "statement": "Any number of threads may use copies of one ConcurrentFile with execute, flush, eof, << and >> in any order, each call depending on what that thread's earlier calls returned. Every run, stopped at any point, has the same returned values (and, when no call is in progress, the same stream) as some sequential execution of the completed calls that keeps each thread's order and puts a call that returned before another was made before it. Hence: threads that read one file with >> together receive every word exactly once and in file order, then failures; threads that each loop while(file >> w) use every word exactly once; all a callback of execute writes stays contiguous. No deadlock as long as no callback of execute uses the same file; one that does blocks the file for ever. Not guaranteed: after eof() returned false the thread's next >> may fail.", "quantifier": "every number of threads, every client code, every initial stream, every schedule, every stopping point", "why_tests_cant": "interleavings and client strategies are unbounded", "anchors": ["src/multi-thread/multi-thread.hpp: ConcurrentFile::execute", "src/multi-thread/multi-thread.hpp: ConcurrentFile::flush", "src/multi-thread/multi-thread.hpp: ConcurrentFile::eof", "src/multi-thread/multi-thread.hpp: operator<<(ConcurrentFile&)", "src/multi-thread/multi-thread.hpp: operator>>(ConcurrentFile&)"]}
{"id": "C72", "title": "Constructed systems; chain runs are plain runs", "statement": "A SimpleSystem, ChainSystem, RegularizedSystem or ARchainSystem constructed from a particle set shows exactly those particles in that order at that time, with zeroed increments and auxiliary velocities equal to the velocities; the regularised ones start with omega = U, binding energy = -(T-U) and step scale U (1 without regularisation). Chain systems exist for every set of two or more particles (with fewer: undefined behaviour), with chain coordinates describing the Cartesian ones. Driven by the simulator (pre_iter_process, symplectic step, post_iter_process with re-indexing) through any sequence of step sizes, a ChainSystem never aborts and shows after every step exactly the time, positions and velocities of the SimpleSystem built from the same particles, and an ARchainSystem those (and omega, binding energy, step scale) of the RegularizedSystem; with balanced forces whole runs conserve momentum and angular momentum and move the centre of mass uniformly. Exact arithmetic.", "quantifier": "every particle set, start time, force list whose chain evaluation agrees with the direct one, regularisation, scheme, sequence of step sizes, and every choice std::sort makes among equal distances", "why_tests_cant": "ranges over all particle sets, step sequences and re-indexing histories", "anchors": ["src/particle-system/base-system.hpp: SimpleSystem", "src/particle-system/chain-system.hpp: ChainSystem", "src/particle-system/regu-system.hpp: RegularizedSystem", "src/particle-system/archain.hpp: ARchainSystem", "src/simulator.hpp: Simulator::advance_one_step"]}
{"id": "C73", "title": "The shipped methods on all four particle systems conserve, call by call and over whole simulations", "statement": "One accepted Bulirsch-Stoer call on a chain system (as the simulator drives it: pre-processing, iteration, re-indexing) has exactly the result of an accepted call on the plain system with the same positions and velocities, with the error test made on chain coordinates; it never leaves the extrapolation tables when the iterator's rank is in range; the system it leaves is ready for the next call, and every constructed system is ready. The same holds for the fixed-composition (sequent) iterator, step sizes included. Hence for internal forces obeying Newton's third law, any number of calls with any requested step sizes, on simple, regularised, chain and regularised-chain systems, keeps masses and total momentum exactly and moves the centre of mass uniformly (sequent methods also keep angular momentum), and at every event of a whole Simulator run whose callbacks only observe, the same holds.", "quantifier": "all particle numbers from two up, masses, positions, velocities, index permutations the re-indexing may choose, step requests, error estimators, tolerances, table depths, retry limits, compositions of drift/kick operators and numbers of calls; all callbacks, stop conditions and schedules of a run", "why_tests_cant": "a test follows one trajectory with one chain order; the claim is about every chain ordering, every accepted/rejected row pattern and every history of calls", "anchors": ["src/ode-iterator/Burlish-Stoer.hpp: BulirschStoer::iterate", "src/ode-iterator/sequent-iterator.hpp: SequentOdeIterator::iterate", "src/particle-system/chain-system.hpp", "src/particle-system/archain.hpp", "src/simulator.hpp: Simulator::run, advance_one_step", "src/spaceHub.hpp: methods"]}
{"id": "C74", "title": "IAS15 error estimate and step control", "statement": "On every particle system IAS15's step error is the largest |b6| over the largest rate of change, in units of 5e-10, over the entries that count (the positions' rates of particles that move more than the slow-particle threshold); a call accepts a step exactly when this estimate is below 3.4^7, it never exceeds the requested step, moves the time by exactly the accepted step, leaves the state at the end of the polynomial path of the entry derivative, and returns a next step of 0.85 e^(-1/7) times the accepted one kept within a factor four. Refuted: that every step's error is seen (a system released from rest is not limited at all) and that the control is independent of the choice of origin. The corrector loop has converged exactly when every entry of the last correction of b6 is below 1e-16 of the largest rate of change; with all rates zero it never converges.", "quantifier": "all interactions, states of the right shape, array contents, requested steps and histories of previous calls", "why_tests_cant": "a test samples a few trajectories; the claims hold for every state, history and step, and the refutations exhibit classes of states (release from rest, translated origin) that ordinary tests miss", "anchors": ["src/ode-iterator/IAS15.hpp: IAS15::iterate, calc_step_error", "src/integrator/Gauss-Radau.hpp"]}
{"id": "C75", "title": "Gauss-Radau methods on all four particle systems", "statement": "At any point of any history of calls the constant-step and the adaptive Gauss-Radau methods on the plain, regularised, chain and AR-chain systems have no undefined behaviour; constant-step calls return with the same step, and the state they return is the end of one corrector path while the coefficients kept for the next call are that polynomial re-expanded about the end of the step plus the error of the last prediction; plain and chain calls move the time by exactly the accepted step; chain systems stay consistent through re-indexing; total momentum and the uniform motion of the centre of mass are exact while the chain order is kept, and after a re-ordering a constant step changes the momentum by at most the rounding of the printed constants (2/10^28 times the tables).", "quantifier": "all balanced interactions of the right shape, states, steps and histories of calls, any re-ordering of the chain", "why_tests_cant": "depends on arbitrary histories of calls with tables carried from call to call and arbitrary re-orderings of the chain", "anchors": ["src/integrator/Gauss-Radau.hpp: GaussRadau", "src/ode-iterator/IAS15.hpp", "src/ode-iterator/const-iterator.hpp", "src/particle-system/chain-system.hpp", "src/particle-system/archain.hpp"]}
{"id": "C76", "title": "Bulirsch-Stoer order and step selection", "statement": "Every call of the Bulirsch-Stoer iterator selects its extrapolation row, its next rank and its next step by the published rule: row errors are measured against the previous row, each error gives an ideal step through the step controller, the cost per unit step is the cumulative number of force evaluations over the ideal step, a row is accepted, rejected or continued by comparing errors with the rule's thresholds, and the next rank and step are those of the cheaper row; the rule is deterministic and the new state is the extrapolant of the accepted row.", "quantifier": "all systems that replay a step, all error estimators and step controllers, all ranks M>=3, all entry states and steps, any number of rejected attempts", "why_tests_cant": "the choice depends on the whole error table of each attempt; tests check a trajectory's accuracy, not that each decision is the rule's", "anchors": ["src/ode-iterator/Bulirsch-Stoer.hpp: BulirschStoer::iterate, get_next_step_len, in_converged_window, is_diverged_anyhow"]}
{"id": "C77", "title": "Lazy vector expressions", "statement": "Assigning a lazy vector expression (plain or compound) to an array acts as if all components were computed first and then stored, for every expression and every aliasing of whole arrays; constructing from an expression stores its components in order; slices of stride 1 and -1 are cyclic and include their end; filling a slice writes exactly its positions; max and min are the extremal components. Refuted: with a component of the destination as scalar operand (v = v / v.x does not scale v), with backward slices of the destination (reversal in place), and for slices with other strides.", "quantifier": "all expressions, arrays, lengths, aliasings and slices", "why_tests_cant": "the number of expressions and aliasings is unbounded; the failing cases are those where the destination occurs as scalar or reversed slice", "anchors": ["src/lazy-evaluation/lazy_expr.h", "src/lazy-evaluation/lazy_array.h", "src/lazy-evaluation/slice.h", "src/vector/lazy-vec3.h: LazyVec3"]}
{"id": "C78", "title": "Hierarchy helpers", "statement": "The helpers of the hierarchy finder: the initial list has one node per particle in order, with its index as weight and name, and distinct names; the hierarchy string holds the names once each in order of increasing weight; a body is reported most bound exactly when no other body but body 0 is on a tighter bound orbit with it; an answer 'not unbound' is right and the answer is exact with one other body. Refuted: that 'unbound' means positive energy (only the last body's potential counts) and that the answer is independent of the frame.", "quantifier": "all particle sets, thresholds and permutations the sort may leave", "why_tests_cant": "must hold for every configuration; the refutation needs three bodies in a particular order", "anchors": ["src/scattering/hierarchical.hpp: create_init_list, check_most_bound, check_unbound, hierarchical_to_string"]}
{"id": "C79", "title": "Automatic file names", "statement": "For every history of calls of auto_name with any prefixes and clock readings, every call returns and the names are pairwise distinct exactly when no prefix comes back at a clock reading it was already used at after another name was asked for; with one prefix and a clock that does not repeat readings all names are distinct. Names are prefix, time stamp and, from the second call in a row, a running number. Refuted: distinctness for two alternating prefixes in one second. make_name gives different names for different numbers with one prefix and extension; refuted across prefixes.", "quantifier": "all histories of fewer than 2^31 calls, all prefixes, all clock readings with a four-digit year", "why_tests_cant": "depends on the whole history of calls through static variables and on the clock", "anchors": ["src/tools/auto-name.hpp: auto_name, make_name"]}
{"id": "C80", "title": "Fixed-point root finder", "statement": "root_newton evaluates any given function between 1 and 1000 times along the iteration x -> x - f(x) from 0, returns the last iterate and stops before the 1000th evaluation only at the first iterate with |f| <= 2^-52; if x - f(x) contracts towards a root r with factor q < 1 the result is within max(q^1000 |r|, q/(1-q) 2^-52) of it. Refuted: that it finds the root of every function with one root (3x - 3: the result is 2^1000 away).", "quantifier": "all functions, all roots and contraction factors", "why_tests_cant": "a statement about every function passed in", "anchors": ["src/math.hpp: root_newton"]}
{"id": "C81", "title": "Stellar radii", "statement": "For every positive mass: the radius of each stellar type is positive; a black hole's is where the escape speed equals the library's speed of light and is proportional to the mass; a neutron star's is 10 km; a star's is the solar radius at a solar mass and its fourth power grows with the mass cubed; a white dwarf's radius cubed times its mass is constant, a hundredth of the solar radius at a solar mass; star radii strictly grow and white-dwarf radii strictly shrink with mass.", "quantifier": "all positive masses and all four types", "why_tests_cant": "ranges over all masses", "anchors": ["src/stellar/stellar.hpp: stellar_radius", "src/macros.hpp: unit, consts"]}
{"id": "C82", "title": "The physics does not depend on the observer or on the order of the particle list", "statement": "Describing the same particles from rotated or reflected axes and a shifted origin turns the Newtonian, tidal, 1PN, 2PN and 2.5PN accelerations and the static gas drag along with the axes, and leaves the energy alone; Newtonian, tidal and 2.5PN accelerations are also the same for a uniformly moving observer (the 1PN term is not). Whole runs inherit this: a simulation started from the particles in another order, seen from turned and shifted axes and by a moving observer, shows after every step of any scheme with any step sizes exactly the original motion, renumbered and seen by that observer - for plain and chain systems with any boost the forces allow, for regularised systems (plain or chain) with a boost whenever the forces conserve momentum.", "quantifier": "every isometry, shift, boost and renumbering, every particle list, force list that is covariant, scheme, step sequence, regularisation", "why_tests_cant": "a test compares a run with one rotated copy; the claim is for every linear isometry, boost and permutation and for arbitrarily long runs", "anchors": ["src/interaction/newtonian.hpp: NewtonianGrav::add_acc_to", "src/interaction/tidal.hpp", "src/interaction/post-newtonian.hpp", "src/particle-system/base-system.hpp", "src/particle-system/regu-system.hpp", "src/particle-system/chain-system.hpp", "src/particle-system/archain.hpp"]}
{"id": "C83", "title": "Units and constants are consistent with each other", "statement": "Every unit-literal x_NAME is x times that unit, and conversions are exact and monotone; minutes, hours, days, months, years (kilo-, mega-, giga-) and the Hubble time are the stated multiples of each other; an astronomical unit is 149597870.7 km, a parsec is the distance at which it spans one arc second; solar, terrestrial and Jovian radii and the masses of Sun, Earth, Jupiter, Moon and proton are the stated multiples of km and kg; light travels 299792.458 km in a second. The year is the period of a circular orbit of one astronomical unit about one solar mass with G = 1 to twenty decimals, and G = 1 is the measured gravitational constant to four digits. The tabulated Boltzmann constant per proton mass is not the quotient of the two constants (0.1 percent low).", "quantifier": "all converted quantities", "why_tests_cant": "Exact relations between real constants; a numerical test sees rounded values only and only the conversions it tries.", "anchors": ["src/macros.hpp: MAKE_UNIT, hub::unit, hub::consts", "src/stellar/stellar.hpp"]}
{"id": "C84", "title": "Parallel sub-steps of the Bulirsch-Stoer iterator", "statement": "When the Bulirsch-Stoer iterator is built with BS_SUBSTEP_PARALLEL, the two threads that integrate the rows of the extrapolation table never access the same shared object with a write, stay in bounds, always finish, and leave the same table as a single thread under every interleaving; the first call of iterate therefore ends with the same state, next step length and outcome as the sequential build. Every later call in the program is undefined behaviour (and a call overlapping the first one on another iterator fills the first object's table), because the worker lambda is a static local bound to the first call's variables.", "quantifier": "all interleavings of the two threads in every attempt, all systems and force laws (plain and regularised), step lengths, tables, error estimators and controllers, all sequences of calls", "why_tests_cant": "Schedules cannot be enumerated by running; the dangling static reference happens to work on most stack layouts.", "anchors": ["src/ode-iterator/Bulirsch-Stoer.hpp: BulirschStoer::iterate (BS_SUBSTEP_PARALLEL)", "src/taskflow/core/executor.hpp: silent_async, wait_for_all"]}
{"id": "C85", "title": "Array helpers are element-wise, alias-safe and order-free", "statement": "Every element-wise helper of calc:: (array_add, array_mul, array_sub, array_div, array_scale, array_div_scale, array_scale_add, array_scale_sub, array_advance, array_retreat, coord_dot, set_arrays_zero) writes to element i of the destination exactly the stated combination of the elements i the operands had on entry, even when the destination is also an operand, leaves every other array and everything beyond the loop bound unchanged, and reads or writes out of bounds exactly when an operand (or, where the bound is the operand's size, the destination) is too short. The loops are marked ivdep: any interleaving in which each iteration loads before it stores ends in the same arrays. array_dot, array_sum and coord_contract_to_scalar add the stated products in index order. Saving, clearing and restoring the error terms of compensated numbers is the identity, and no error-term helper touches a value.", "quantifier": "every element type and operator on it, every number of operands, every array size, every aliasing of destination and operands, every admissible reordering of loads and stores", "why_tests_cant": "A test runs one compiler's order on a few aliasing patterns; the claim is over all aliasings, sizes, arithmetic types and all orders the ivdep pragma permits.", "anchors": ["src/core-computation.hpp: calc::array_add, array_scale, array_scale_add, array_scale_sub, array_advance, array_retreat, array_dot, coord_dot, coord_contract_to_scalar, array_save_err, array_load_err, array_copy_err, array_set_err_zero"]}
{"id": "C86", "title": "Text of tuples and containers reads back", "statement": "Numbers written through operator<< of std::tuple, std::array, std::vector and SmallVector, nested in any way, or through display, are read back exactly and in order by input / operator>> into as many variables, whatever those held; one variable too many makes the stream fail and keeps its value. print_csv of numbers is one row whose comma-separated columns are the printed numbers. print puts nothing between its arguments, so two adjacent numbers cannot be read back.", "quantifier": "every nesting and length of tuples and containers, every number format whose output consists of number characters and parses back, every initial content of the variables", "why_tests_cant": "The claim ranges over all nestings, lengths and number formats; a test fixes one of each.", "anchors": ["src/IO.hpp: print, input, print_csv, display, operator<<, operator>>"]}
{"id": "C87", "title": "Adaptive runs do not depend on particle order or on the names and signs of the axes", "statement": "A run driven by the Bulirsch-Stoer iterator (plain and regularised systems) or by the sequent iterator takes the same sequence of step sizes, makes the same accept/reject decisions and produces the same motion when the particle list is renumbered and the coordinate axes are exchanged or flipped, for every interaction that has these symmetries and for each of the shipped error estimators (WorstOffender, MaxRatioError, RMS). It is not invariant under turning the axes by an angle or moving the origin: the error estimates are component-wise and relative to the coordinates.", "quantifier": "every particle list, every renumbering, every exchange and flip of axes, every interaction with these symmetries, every number of adaptive calls and every rule for choosing the requested step", "why_tests_cant": "It compares two runs of unbounded length for all particle systems, permutations and axis choices; a test can only compare single runs, where rounding hides a genuine dependence.", "anchors": ["src/ode-iterator/Bulirsch-Stoer.hpp:BulirschStoer::iterate", "src/ode-iterator/sequent-iterator.hpp:SequentOdeIterator::iterate", "src/ode-iterator/error-checker/worst-offender.hpp:WorstOffender::error", "src/ode-iterator/error-checker/max-ratio-error.hpp:MaxRatioError::error", "src/ode-iterator/error-checker/RMS.hpp:RMS::error"]}
{"id": "C88", "title": "Results with invalid numbers are not accepted", "statement": "When an adaptive Bulirsch-Stoer step accepts a result and advances the clock, every position and velocity of the result is an ordinary number: an estimate holding NaN is reported by the error checker and not accepted. On ordinary input with no two particles at one place a run never meets special values. (The shipped default checker violates the first part: WorstOffender and MaxRatioError skip NaN, so a run on a set that holds one particle twice accepts states without any number, with error 0 and growing steps; RMS satisfies it.)", "quantifier": "all particle sets and masses, all step lengths, all tolerances, all maximal orders, drift-kick-drift and kick-drift-kick, all numbers of consecutive calls, all positions of NaN in an estimate", "why_tests_cant": "NaN reaches the checkers only on rare inputs (coincident particles), in any entry of arrays of any length, and every comparison with NaN is silently false; a finite set of examples does not show which checkers catch every pattern of NaN.", "anchors": ["src/ode-iterator/error-checker/worst-offender.hpp:WorstOffender::error", "src/ode-iterator/error-checker/RMS.hpp:RMS::error", "src/ode-iterator/error-checker/max-ratio-error.hpp:MaxRatioError::error", "src/ode-iterator/Bulirsch-Stoer.hpp:BulirschStoer::iterate", "src/interaction/newtonian.hpp:NewtonianGrav::add_acc_to", "src/spaceHub.hpp:methods"]}
{"id": "C89", "title": "A fixed-step run ends at the end time in floating-point arithmetic", "statement": "A fixed-step simulation whose scalars are floating-point numbers returns after about (end - start)/step steps with its clock within the relative tolerance of the end time and never reads a time beyond the end by more than the rounding of one step, provided the step is not too small for the clock: with double clocks at least 2^-38 of the end time, with compensated clocks 2^-90; for smaller steps a plain clock stands still and the run never returns. With tolerance 0 and the kick-drift-kick leapfrog the run ends exactly at the end time; with the drift-kick-drift leapfrog it may never return.", "quantifier": "every binary format and tie rule (or binary64), every start and end time, step, tolerance, number of steps and integrator in the stated ranges", "why_tests_cant": "rounding of the clock depends on every bit of start, end and step; a test observes one triple, and non-termination cannot be observed at all", "anchors": ["src/simulator.hpp:Simulator::run", "src/kahan-number.hpp:Kahan::operator+=", "src/particle-system/base-system.hpp:drift", "src/ode-iterator/const-iterator.hpp:ConstOdeIterator::iterate", "src/integrator/symplectic/symplectic-integrator.hpp"]}
{"id": "C90", "title": "Accuracy of chain coordinates in floating-point arithmetic", "statement": "With double-precision coordinates, converting positions to chain coordinates stores the head exactly and every link as the correctly rounded separation of its two particles (relative error at most 2^-prec, exact when the coordinates are within a factor of two); converting back returns the particle at place i of the chain within ((1+u)^i-1)(3+2u) times the largest coordinate; re-indexing an existing chain gives every new link within ((1+u)^k-1) times the length of the old path of k links between its particles. All three are exact when the separations are representable, e.g. positions on a common grid of 2^prec cells. The round trip is not exact in general, and re-indexing can return a zero separation for two distinct neighbouring particles.", "quantifier": "every binary format, tie rule, number of particles, chain order, new chain order and set of representable positions", "why_tests_cant": "The error bounds must hold for every position set and every order of the chain; the loss of a separation needs particular magnitudes and a particular change of order.", "anchors": ["src/particle-system/chain.hpp:to_chain", "src/particle-system/chain.hpp:to_cartesian", "src/particle-system/chain.hpp:get_new_node", "src/particle-system/chain.hpp:update_chain", "src/vector/vector3.hpp:Vec3"]}
{"id": "C91", "title": "Newtonian accelerations in floating-point arithmetic", "statement": "In floating-point arithmetic (round to nearest, any tie rule) the Newtonian accelerations of direct summation are, for every particle and component, within n+17 relative roundings of the sum of the magnitudes of the individual attractions (and of what the array held before), provided non-zero masses and coordinate differences stay within 2^-E..2^E with 5E+3 inside the exponent range; the net force is bounded accordingly but is not exactly zero in general; two particles of equal mass do get exactly opposite accelerations; the chain loops give every member the attraction of every other member exactly once, within n+13 roundings for the displacements the chain supplies; no intermediate result leaves the range.", "quantifier": "all particle numbers, masses, positions, chains and call orders, all formats and tie rules within the exponent condition", "why_tests_cant": "the bound must hold for every system and every rounding pattern; a test compares a few configurations with tolerances that hide lost or doubled terms", "anchors": ["src/interaction/newtonian.hpp:NewtonianGrav::add_acc_to", "src/vector/vector3.hpp:norm"]}
{"id": "C92", "title": "Vec3 arithmetic on IEEE 754 numbers, special values included", "statement": "For every format and every bit pattern of the components (both zeros, subnormals, infinities, NaN): each vector and scalar operator of Vec3 acts on each component with one correct rounding, overflow giving an infinity of the right sign; u+v, u*v (by component), scalar+v, scalar*v and dot do not depend on the order, bit for bit; u-v and cross(u,v) change only sign when the operands are swapped (zeros of either sign apart); compound assignment leaves in its target what the binary operator gives, also when both operands are the same object or the scalar is a component of the target; norm is NaN exactly if a component is NaN and otherwise neither negative nor -0, is unchanged by negation and abs, finite for components up to 2^510 in double, and within three roundings of the length away from underflow; distance is the norm of the difference, symmetric bit for bit, +0 from a finite point to itself; max/min functions without NaN return one of the operands and bound all of them. On integer components of moderate size +, -, component product, dot and cross are exact and the usual algebra holds. The constructors give the three values passed, one value repeated, or +0. What does not hold is exhibited: associativity, norm of a finite (non-zero) vector infinite (zero), abs() giving -0, cross(v,v) NaN, max_component/max_abs/vec_max hiding NaN.", "quantifier": "all precisions and exponent ranges, all component values including infinities and NaN, all pairs of possibly aliased objects", "why_tests_cant": "2^192 bit patterns for one vector; symmetry bit for bit and NaN behaviour for all of them cannot be sampled", "anchors": ["src/vector/vector3.hpp:Vec3", "src/vector/vector3.hpp:norm", "src/vector/vector3.hpp:distance", "src/vector/vector3.hpp:cross", "src/vector/vector3.hpp:max_abs"]}
{"id": "C93", "title": "Newtonian accelerations: where IEEE arithmetic keeps them finite and right, and how special values spread", "statement": "In any IEEE format: for finite coordinates and masses whose non-zero values and separations lie between 2^-E and 2^E (E up to about a fifth of the exponent range), with different positions, all accelerations are finite and right up to n+17 roundings of the sum of the magnitudes. Two particles in the same place make every component of both accelerations NaN, whatever the masses; one NaN coordinate makes every component of every acceleration NaN; one infinite coordinate makes that component of every acceleration NaN; a NaN mass spoils and an infinite mass leaves non-finite the accelerations of all other particles, and no mass enters the particle's own acceleration; nothing that is not finite becomes finite again. If the cube of the computed distance underflows to zero no component of the two accelerations is finite although positions differ (double: 2^-360 apart), if it overflows the pair exerts no force at all (double: 2^342 apart).", "quantifier": "all formats, particle numbers, masses, positions (special values included) and previous contents of the acceleration array", "why_tests_cant": "quantifies over all bit patterns of all coordinates and masses and all particle numbers", "anchors": ["src/interaction/newtonian.hpp:NewtonianGrav::add_acc_to", "src/vector/vector3.hpp:norm"]}
{"id": "C94", "title": "Outputs of TimeSlice on IEEE 754 times", "statement": "For every start, end, number of slots and list of call times (NaN and infinities included) a call makes an output iff slot k <= t <= end, k being the number of outputs so far and slot k the start plus k rounded additions of the rounded interval; NaN makes no output; opt_num = 0 gives at most one output. The slots deviate from start + k(end-start)/n by at most k rounding errors of the size of the times, so there are at most n+1 outputs as long as n+1 such errors are less than an interval, and on start, end and interval that are multiples of one power of two the outputs are exactly those of exact arithmetic. Not guaranteed (exhibited): the output at the end (0 to 100 in 6 slots), and any bound on the number of outputs when the interval is below the spacing of the times. reset_slice_params forgets the past.", "quantifier": "all formats, all starts, ends, slot numbers, all histories of call times with any bit pattern", "why_tests_cant": "Whether the last output is lost depends on accumulated rounding for each (start, end, n); all of them cannot be run", "anchors": ["src/args-callback/callbacks.hpp:TimeSlice::TimeSlice", "src/args-callback/callbacks.hpp:TimeSlice::operator()", "src/args-callback/callbacks.hpp:TimeSlice::reset_slice_params"]}
{"id": "C95", "title": "Compensated numbers on IEEE 754 arithmetic", "statement": "For Kahan, Neumaier and Klein numbers, both += and -=, every bit pattern of the members and of the operand: the result depends only on the left object and the plain value of the right one, also when both are the same object, and no other object changes; adding to a number without compensation is the plain addition; *= and /= keep the compensation, unary minus drops it. Neumaier and Klein: if the plain value of the result is finite then all operands and all stored compensations are finite and the exactness of C38 holds; if the result of a list of += is finite, nothing overflowed on the way and the C38 error bound holds. Once a statement leaves a non-finite plain value, the next one makes it NaN for ever. Not guaranteed (exhibited in double): a finite Kahan sum may carry an infinite compensation and become -infinity at the next addition; x -= x need not be zero; -(-x) is not x; an infinity is not kept.", "quantifier": "all formats, the three types, both operators, all bit patterns, all histories of statements on any objects (aliasing included)", "why_tests_cant": "Overflow in an intermediate result depends on operands at the end of the range; no finite set of operands covers all bit patterns and histories", "anchors": ["src/kahan-number.hpp:Kahan", "src/kahan-number.hpp:Neumaier", "src/kahan-number.hpp:Klein"]}
{"id": "C96", "title": "Root finding in machine arithmetic: returns, and what is returned", "statement": "In IEEE arithmetic, root_bisection on finite ends no larger than a quarter of the range keeps its ends finite and between the ones given, and returns for every callable unless it arrives at two neighbouring numbers no larger than the least normal number; in particular it returns when the interval stays away from zero and for the parabolic orbit equation with |M| > epsilon. The result lies between the given ends and, when products of values do not underflow and the values at the ends have no common strict sign, within two relative epsilons of a root of the real function whose signs the callable has. A callable changing sign at zero without shrinking values makes it loop for ever; a NaN or underflowing products make it silently return the upper end. root_newton returns the first iterate that moved by at most epsilon, or the thousandth; NaN iterates give NaN; it may stop where the function is not small.", "quantifier": "all floating-point formats, all callables (including NaN, infinite and subnormal results), all finite ends", "why_tests_cant": "Termination and location of the result must hold for every callable and every pair of ends; the failures need particular rounding and underflow patterns.", "anchors": ["src/math.hpp:root_bisection", "src/math.hpp:root_newton", "src/orbits/orbits.hpp:M_anomaly_to_E_anomaly"]}
{"id": "C97", "title": "Eccentric anomaly from mean anomaly in machine arithmetic", "statement": "In IEEE arithmetic with any library sin and sinh of accuracy d, M_anomaly_to_E_anomaly returns 0 for |M| <= epsilon whatever the eccentricity, aborts for every other M when the eccentricity is negative or NaN, and otherwise returns, for all finite M and eccentricities up to an enormous bound, a finite number between -pi and pi. For M inside the range reached on [-pi, pi] the result is within (d + 16u)/(1-e) + 17u of the solution of Kepler's equation on elliptic orbits (u half a unit in the last place of 1), within e(d + 128u)/(e-1) + 17u on hyperbolic and 161u on parabolic ones. M beyond that range, and infinite M, give -pi without any diagnosis, a NaN M gives pi, and an infinite eccentricity, which the message of the abort names, makes the call loop for ever.", "quantifier": "all formats at least as wide as double's proportions, all library functions of the stated accuracy, all M and e including NaN and infinities", "why_tests_cant": "The error bound and termination quantify over all M, e and library implementations; the hang and the silent results occur only on special values.", "anchors": ["src/orbits/orbits.hpp:M_anomaly_to_E_anomaly", "src/math.hpp:root_bisection"]}
{"id": "C98", "title": "Work-stealing queue: every interleaving looks like a double-ended queue", "statement": "One thread pushes and pops, any number of threads steal. Whatever the interleaving, there is an order of the operations, each placed between its call and its return, in which a plain double-ended queue gives exactly the results returned (pop takes the newest, steal the oldest, pop fails only on an empty queue). Every item pushed is handed out at most once and none is lost; between calls size() and empty() tell the number of items, and the capacity is the initial one times a power of two and never less than the number of items. push returns after 6 steps of its own, pop after 7, steal after 5, whatever the other threads do, and a steal that runs alone on a non-empty queue takes the oldest item.", "quantifier": "all power-of-two initial capacities, all numbers of thieves, all programs of calls, all sequentially consistent interleavings of the atomic accesses, all lengths of run", "why_tests_cant": "the races (the last item taken from both ends, growth while a thief holds the old array) need particular interleavings that a test schedule rarely produces", "anchors": ["src/taskflow/core/tsq.hpp:TaskQueue::push", "src/taskflow/core/tsq.hpp:TaskQueue::pop", "src/taskflow/core/tsq.hpp:TaskQueue::steal", "src/taskflow/core/tsq.hpp:Array::resize"]}
{"id": "C99", "title": "Scalar helpers and step control on IEEE 754 numbers", "statement": "in_range keeps every number and infinity between ordered limits, returns it bit for bit when it is inside, and lets NaN through. abs is fabs except that abs(-0.0) is -0.0; step and sign depend only on x > 0 (both zeros and NaN give 0 and -1). iseq is symmetric, true only for finite numbers that differ by less than epsilon, from magnitude 1 on the same as ==, and iseq(e, 1.0) holds exactly for e = 1 and the largest number below 1. The step controller: for every order the limits enclose 1; every error from 0 to infinity gives a step factor within the limits, 0 gives the largest, infinity the smallest, NaN gives NaN (except at order 0, which ignores the error), and a larger error never gives a larger factor.", "quantifier": "all values of all binary formats, infinities and NaN included, all orders, all safe guards with 0 < S1, S2, S3 <= 1 <= S4, all pow functions that keep [0,1] and [1,inf) and (for monotonicity) the order", "why_tests_cant": "the special values and the neighbours of every limit in every format cannot be enumerated", "anchors": ["src/math.hpp:in_range", "src/math.hpp:abs", "src/math.hpp:step", "src/math.hpp:sign", "src/math.hpp:iseq", "src/ode-iterator/step-controller/PID-controller.hpp:next_with_limiter", "src/ode-iterator/step-controller/PID-controller.hpp:PIDController"]}
{"id": "C100", "title": "Running a task graph: order, exactly once, completion", "statement": "A taskflow of static tasks with precede/succeed links and no cycle is submitted any number of times, from any threads, with run, run_n or run_until. Whatever the interleaving of the workers and the submitting threads: the runs are carried out one after the other; in each pass every task starts exactly once, after all its predecessors have finished, and finishes once; a pass begins only when the previous one is over; run_n(f, N) makes N passes; the callback comes after the last pass, the future becomes ready exactly once, after it; wait_for_all returns only when all of this is over and no worker is busy; no counter is decremented below zero; with at least one worker the executor never blocks while a run is open, and it cannot go on for ever. With a cycle this fails: without a source the run never ends, and behind a source a task can start in the second pass although a predecessor never finished.", "quantifier": "All acyclic graphs of any size (parallel edges included), numbers of workers, numbers of submissions, predicates and interleavings", "why_tests_cant": "The claim ranges over every schedule of every graph; a test runs a few graphs under the schedules the machine happens to choose.", "anchors": ["src/taskflow/core/executor.hpp:Executor::_invoke", "src/taskflow/core/executor.hpp:Executor::_tear_down_invoke", "src/taskflow/core/executor.hpp:Executor::_set_up_topology", "src/taskflow/core/executor.hpp:Executor::_tear_down_topology", "src/taskflow/core/executor.hpp:Executor::run_until", "src/taskflow/core/executor.hpp:Executor::wait_for_all", "src/taskflow/core/graph.hpp:Node::_precede"]}
{"id": "C101", "title": "tf::Notifier: no wake-up is lost", "statement": "Threads use a notifier: waiters call prepare_wait and then commit_wait or cancel_wait, other threads call notify(false) or notify(true), in any interleaving. Once no notify is under way, no waiter sleeps that had prepared before a notify(true) took effect, and when nobody is inside a call exactly as many sleep as prepared less those that cancelled or were notified one by one. A notify finds nobody only if nobody is owed a notification. A sleeper covered by notify(true) is signalled as long as the notifying thread runs. Used as the header prescribes (set the predicate, then notify(true); sleep only if the predicate was false after prepare_wait), nobody sleeps once the predicate is true and the notify calls have returned. Waiters do not deadlock waiting for their turns, the assertions hold, and the bit arithmetic on the 64-bit word is right for up to 65534 waiters unless a waiter is 2^31 epochs late.", "quantifier": "every number of waiters and notifying threads, every interleaving of the atomic accesses, every spurious failure of compare_exchange_weak, every initial epoch", "why_tests_cant": "a lost wake-up needs a particular interleaving of several threads; tests see a few schedules", "anchors": ["src/taskflow/core/notifier.hpp:Notifier::prepare_wait", "src/taskflow/core/notifier.hpp:Notifier::commit_wait", "src/taskflow/core/notifier.hpp:Notifier::cancel_wait", "src/taskflow/core/notifier.hpp:Notifier::notify", "src/taskflow/core/notifier.hpp:Notifier::_park", "src/taskflow/core/notifier.hpp:Notifier::_unpark"]}
{"id": "C102", "title": "The workers of tf::Executor do not sleep through work", "statement": "Workers look for tasks, execute them, and sleep on the notifier when they find none; other threads schedule tasks. Whatever the interleaving: a call that schedules n tasks puts n tasks in the shared queue and returns without waiting for anybody; no task is lost and none is taken twice (the tasks scheduled so far are those taken so far and those still queued); when all workers sleep and no other thread is inside the executor, no task is left in any queue; while the shared queue has a task some worker, run alone, ends up with a task in hand; a worker's own queue has tasks only while it executes tasks; while one worker executes tasks and another sleeps, some worker looks for tasks or is being woken to do so; once the destructor has set the flag and notified, no worker sleeps and each, run alone, leaves.", "quantifier": "every number of workers and of other threads, every interleaving of the atomic accesses, every failed steal, every choice of the waiter a notify hits", "why_tests_cant": "sleeping through work needs a particular interleaving of the last thief, a worker that becomes active and a scheduling thread", "anchors": ["src/taskflow/core/executor.hpp:Executor::_explore_task", "src/taskflow/core/executor.hpp:Executor::_exploit_task", "src/taskflow/core/executor.hpp:Executor::_wait_for_task", "src/taskflow/core/executor.hpp:Executor::_schedule", "src/taskflow/core/executor.hpp:Executor::~Executor", "src/taskflow/core/notifier.hpp:Notifier::notify_n"]}
{"id": "C103", "title": "A parallel loop visits every element exactly once and returns", "statement": "tf::Taskflow::for_each, for_each_guided, for_each_dynamic, for_each_static and for_each_index, for_each_index_guided, _dynamic, _static: whatever the range, the step (up or down, dividing the range or not), the number of workers, the chunk size and the interleaving of the workers, the body is called exactly once for every element that the sequential loop would visit and never for any other, at no moment has an element been visited twice, and the loop always comes to its end. A range is refused exactly when its sequential loop would not end (an empty range with step zero is accepted, and then divides by zero).", "quantifier": "all ranges, steps, chunk sizes, worker counts (within 64-bit counters), all values of the guided chunk estimate, all interleavings", "why_tests_cant": "a test runs a few schedules; a double or missed visit needs a particular interleaving of the shared counter with a particular remainder of the range", "anchors": ["src/taskflow/core/algorithm/for_each.hpp:FlowBuilder::for_each_guided", "src/taskflow/core/algorithm/for_each.hpp:FlowBuilder::for_each_dynamic", "src/taskflow/core/algorithm/for_each.hpp:FlowBuilder::for_each_index_static", "src/taskflow/utility/iterator.hpp:is_range_invalid"]}
{"id": "C104", "title": "A parallel reduction gives the result of the sequential loop", "statement": "tf::Taskflow::reduce, reduce_guided, reduce_dynamic, reduce_static with and without a chunk size, and the transform_reduce versions: for an associative and commutative operation the result is that of the sequential loop, whatever the range, the number of workers, the chunk size, the initial value and the interleaving; for an operation that is only associative it is that of a loop over the same elements in some order, each exactly once. No two workers are ever inside the critical section together, none blocks for ever, and the reduction always ends.", "quantifier": "all element types, operations (associative, commutative), ranges, worker counts, chunk sizes (within 64-bit counters), all interleavings", "why_tests_cant": "a lost update of the result or a chunk counted twice needs a particular interleaving of the counter, the mutex and the result", "anchors": ["src/taskflow/core/algorithm/reduce.hpp:FlowBuilder::reduce_guided", "src/taskflow/core/algorithm/reduce.hpp:FlowBuilder::reduce_dynamic", "src/taskflow/core/algorithm/reduce.hpp:FlowBuilder::reduce_static", "src/taskflow/core/algorithm/reduce.hpp:FlowBuilder::transform_reduce_guided"]}
