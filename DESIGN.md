# Formal model of SpaceHub in Rocq (Coq 8.16.1)

## What is modelled and how

The model is a function-by-function transcription of the headers under `/repo/src`
into Gallina; every definition of a `*_Model.v` file carries a comment citing the file and
lines it transcribes, and says what it simplifies.  Conventions:

* **Scalars.** Unless said otherwise `double` arithmetic is idealised as the real numbers `R` of the
  standard library, and decimal literals are exact reals; such theorems say nothing about rounding.
  Rounding is modelled, with Flocq's FLT formats (any precision, least exponent and tie rule, subnormals,
  no overflow), in the groups Kahan (C38), Fsim (C89), Fchain (C90), Fnewt (C91) and in the index computation of Disk64 (C55).
  Infinities and NaN are modelled in Ctrl, Ias, Bsel (C35, C36, C74, C76) and, for whole
  Bulirsch-Stoer steps, in Nan (C88); there finite values are exact.
  Ieee and Inewt (C92, C93) use Flocq's IEEE 754 `binary_float` (rounding to nearest even, overflow, both zeros,
  infinities, one NaN), and C93_in_range links them to the rounding model of Fnewt.
* **Undefined behaviour** (out-of-bounds index, division by zero on integers, read of an
  uninitialised flag, `front()` of an empty queue) and **abort** are distinct outcomes
  (`Verif.Base.outcome`: `Ok`, `Abort`, `UB`).
* **Loops** are structural recursion or recursion on fuel; theorems about loops that may not
  terminate quantify over all fuels (`None` for every fuel = the call never returns).
* **Threads** are labelled transition systems whose steps are the atomic actions of the code
  (lock, test, wait, notify, unlock, single accesses); theorems are invariants over all reachable states or
  statements about all schedules.  Spurious wake-ups are included.  Memory is sequentially consistent;
  data races are detected from access logs where they matter (C84).
* **std::sort, random sources, user callbacks, forces, integrators, number formatting** are universally
  quantified parameters (any sorting permutation, any function).
* **Heap and aliasing** are explicit where the code works in place (Arr C85, Lazy C77, Own C70).

Files (all under `rocq/theories`): `X_Model.v` is the transcription, `X_Spec.v` the vocabulary in which the
property is stated (independent of the model's helpers), `X_Proofs*.v` the lemmas, `X_Props.v` the property
theorems `Cnn_...` with `Print Assumptions` and non-vacuity `Example`s.  `Base.v` (outcomes, lists) and `Vec.v` (Vec3 over R) are shared.

Where the code violates the property a user would expect, the theorem is named `..._refuted` and gives a
witness (often for every parameter, not just one instance), next to the positive theorem with the exact
condition under which the property holds.  No theorem is `_partial` at present.

## Plan per property

Every row names what is modelled, how it is proved, and the files holding the theorems (`X_Props.v`; the model is `X_Model.v`, the specification vocabulary `X_Spec.v`).

| id | property | model | proof method | theorems in | count |
|---|---|---|---|---|---|
| C01 | Parallel loop covers the index range | parallel_loop ranges as lists of indices | arithmetic, induction over workers; the exact set covered is characterised, full coverage is refuted | Loop_Props | 5 |
| C02 | Thread pool runs accepted tasks FIFO, at most once, in a bounded queue | thread pool as a labelled transition system (mutex, condition variable, bounded queue, spurious wake-ups) | inductive invariants over all reachable states, history of executed tasks | Pool_Props | 6 |
| C03 | Thread pool destruction | the pool's destructor in the same transition system | invariant + explicit bad schedule; weight argument for termination when no task is waiting to be submitted | Pool_Props | 5 |
| C04 | Output pipe loses nothing and keeps order | output pipe: writer, producers, constructor, destructor; `stop_` may be read uninitialised | flow invariant, control invariant, weight function; the uninitialised read is shown to lose data and to pop an empty queue | Opip_Props | 10 |
| C05 | Input pipe delivers the file in order | input pipe: reader thread, consumer, destructor | flow and control invariants over all schedules | Ipip_Props | 10 |
| C06 | Concurrent file records are atomic | ConcurrentFile as a transition system over records | invariant: the file is a concatenation of whole records | CFile_Props | 4 |
| C07 | Callback protocol of Simulator::run | Simulator::run as a fuelled loop over an arbitrary world, iterator and callbacks, with an event trace | induction on fuel; grammar of the trace | Sim_Props | 4 |
| C08 | Stop conditions | same loop, stop conditions arbitrary | induction on fuel | Sim_Props | 3 |
| C09 | End time is reached and never overshot | same loop with a step that advances the clock exactly (reals) | induction on the number of steps; floating-point version: C89 | Sim_Props | 2 |
| C10 | Backward or degenerate end times | same loop, end time before or equal to the start | induction; the warning branch | Sim_Props | 1 |
| C100 | Running a task graph: order, exactly once, completion | tf::Executor running a taskflow of static tasks: join counters, topology counter, rescheduling, tear-down, run_until, _num_topologies; one atomic access per step, any number of workers and submitting threads | a ghost phase per node and counting invariants (served edges + pending schedulings + state of the node; topology counter = queued + busy + pending); all nodes served when the counter reaches zero, by rank; a measure lowered by every step of the executor | Tgr_Cases, Tgr_Props | 12 |
| C101 | tf::Notifier: no wake-up is lost | tf::Notifier: every atomic access of prepare_wait, commit_wait, cancel_wait, notify and _unpark is a step; word as three fields with an unbounded epoch, and separately the 64-bit arithmetic | the stack of sleepers is a chain of distinct waiters, each sleeper is on it or on one notifier's list; tickets at or above the epoch are distinct and fill the counter; a word with the same epoch still shows the top of the stack (no ABA); mod 2^32/2^64 arithmetic for the packed word | Enc_Props | 13 |
| C102 | The workers of tf::Executor do not sleep through work | tf::Executor: the loop of a worker (explore, exploit, wait), _schedule from other threads, the destructor; one atomic access per step, queues as lengths, the notifier as C101 describes it | counting invariants for the two counters; tasks in the shared queue imply a pending notify or a worker that has not passed its check (or has been notified); active workers imply a thief, a worker about to become one or to notify, or nobody idle; runs of one worker for the rest | Tsl_Props | 10 |
| C103 | A parallel loop visits every element exactly once and returns | the parallel loops of for_each.hpp (guided, dynamic, static with even parts and chunk by chunk; iterators and indices), the check and the length of an index range; one access to the shared counter or one call of the body per step, size_t wraps, the guided estimate is any number | invariant: each position is counted once among calls, positions held by a task and positions not handed out; end of the counter at the join; a measure that every step lowers; integer arithmetic for the range | Tfe_Props | 6 |
| C104 | A parallel reduction gives the result of the sequential loop | the parallel reductions of reduce.hpp (guided, dynamic, static with even parts) over any type and operation; one access to the counter, the mutex or the result, or one call of the operation, per step; the chunk-by-chunk static reductions (Trc_Model) | invariant as for C103 with the elements inside the result and inside each partial sum counted too (associativity moves a partial sum into the result, commutativity only reorders at the end); the holder of the mutex is unique; a measure | Trc_Props, Tre_Props | 8 |
| C11 | StepSlice fires every n-th call | StepSlice state machine | induction over call histories | Slice_Props | 4 |
| C12 | TimeSlice firing rule | TimeSlice state machine | induction over call histories | Slice_Props | 4 |
| C13 | LogTimeSlice schedule | LogTimeSlice state machine incl. the inner loop (fuel) | induction; non-termination and stale-origin witnesses | Slice_Props | 6 |
| C14 | Writers: header once, energy reference | DefaultWriter/EnergyErrWriter state with shared stream | induction over calls and copies | Slice_Props | 3 |
| C15 | Chain index is a permutation | calc_chain_index; std::sort is any sorting permutation | fuel bound, edge-set invariant, counting | Chain_Props | 3 |
| C16 | Chain links the closest pair first | same | greedy characterisation, witness of the skipped rank | Chain_Props | 3 |
| C17 | Chain/Cartesian round trip | to_chain/to_cartesian with bounds-checked arrays | telescoping sums over permutations | Chain_Props | 3 |
| C18 | Re-indexing the chain preserves the physical state | update_chain | telescoping sums | Chain_Props | 2 |
| C19 | Chain evaluation of pair quantities agrees with direct evaluation | chain evaluation loops of newtonian.hpp and interaction.hpp | permutation of the pair list, symmetric pair terms | Force_Props | 6 |
| C20 | Newtonian accelerations obey Newton's third law | pair loop of NewtonianGrav | pair-sum lemmas, ring | Force_Props | 4 |
| C21 | Interaction list composition | Interactions parameter packs | case analysis over pack shapes | Force_Props | 4 |
| C22 | Tidal force conserves momentum and angular momentum | Tidal force | pair-sum lemmas, ring/field | Force_Props | 4 |
| C23 | Post-Newtonian terms are symmetric under particle exchange | PN1, PN2, PN2.5 forces | ring identities; witness for 2PN | Force_Props | 2 |
| C24 | Gas drag never accelerates | static gas drag and disk friction | sign of the power, field/nra | Disk2_Props, Force_Props | 7 |
| C25 | Symplectic schemes conserve momentum | base, regularised, chain and AR-chain systems with arbitrary forces that are balanced | induction over drift/kick sequences; refinement of the chain systems | System_Props | 9 |
| C26 | Symplectic integrators are time reversible | same | palindromic sequences, inverse of drift and kick | System_Props | 5 |
| C27 | Integrators advance time by the step | same; coefficient literals as decimals | sums of literals by lra | System_Props | 6 |
| C28 | Scalar-array serialisation round trip | write_to/read_from of scalar arrays | list algebra with offsets | System_Props | 7 |
| C29 | Accumulated increments equal the state difference | increment bookkeeping | induction over op sequences | System_Props | 5 |
| C30 | Binding-energy derivative | evaluation of the binding-energy derivative | exact derivative vs code, witness | System_Props | 5 |
| C31 | Bulirsch-Stoer extrapolation is polynomial extrapolation | extrapolation table | Neville-Aitken lemma by induction on the column | BS_Props | 3 |
| C32 | Bulirsch-Stoer accept/reject discipline | BS iterate: rows, windows, accept/reject, rank | case analysis of every branch, fuelled attempts | BS_Props, BS_Props2 | 8 |
| C33 | Bulirsch-Stoer rank bounds | ideal rank bounds | invariant over calls; out-of-range witness for every depth | BS_Props | 3 |
| C34 | Bulirsch-Stoer on plain ODE functions advances time by the step | BS on plain functions | reduction to C32, witness of the missing time | BS_Props, BS_Props2, Bfun_Props, Tight_Props | 14 |
| C35 | PID step controller limits | PID controller on reals + infinities + NaN | order reasoning, history of past errors | Ctrl_Props, Ctrl_Props2 | 12 |
| C36 | Error checkers | WorstOffender, RMS, MaxRatio | maxima over lists, permutation invariance | Ctrl_Props, Ctrl_Props2, Tight_Props | 11 |
| C37 | Sequent iterator result | SequentIterator generic in system/estimator/controller | induction on attempts | Ctrl_Props, Ctrl_Props2 | 6 |
| C38 | Compensated summation | Kahan, Neumaier, Klein on Flocq FLT numbers | Fast2Sum/TwoSum, error accumulation by induction | Kahan_Props | 10 |
| C39 | Bisection keeps the root bracketed | bisection | bracketing invariant, IVT | Bisect_Props | 6 |
| C40 | Euler rotation is a rigid rotation | euler_rotate | rotation matrices, trigonometric identities | Orbit_Props | 4 |
| C41 | orbit_to_coord yields the requested orbit | orbit_to_coord | conic-section identities, field | Manip2_Props, Orbit_Props, Orbnew_Props | 6 |
| C42 | Anomaly conversions are mutually inverse | anomaly conversions | IVT + monotonicity, inverse functions; bisection tolerance | Anom_Props, Orbnew_Props | 15 |
| C43 | move_particles sets the centre of mass exactly | move_particles, centre of mass | list sums | Manip_Props | 6 |
| C44 | Cluster helpers | cluster helpers of particle-manip.hpp | list maxima/sums; two defects as witnesses | Manip2_Props, Manip_Props, Orbnew_Props | 15 |
| C45 | Scattering geometry | incident orbits, impact parameters | conic identities, real analysis | Manip2_Props, Orbnew_Props, Scat_Props | 12 |
| C46 | Kozai-Lidov time-scale | Kozai time-scale | direct computation, refutation | Scat_Props | 2 |
| C47 | Structure-of-arrays containers stay consistent | point/finite-size/tide/drag particle containers | induction over operation histories | Part_Props | 6 |
| C48 | Sticky collision detection | collision detection loops | pair enumeration | Tool_Props | 3 |
| C49 | Configuration files | config-reader on text | lexing lemmas, induction over lines | Conf_Props | 8 |
| C50 | Command line arguments | command line readers | case analysis over argument vectors | Conf_Props | 4 |
| C51 | Timer accumulates active time | Timer | induction over start/pause histories | Tool_Props | 6 |
| C52 | Random parameter boundaries | random generators as functions of an arbitrary source | order reasoning; histories of draws | Tool2_Props, Tool_Props | 21 |
| C53 | Gauss-Radau collocation | Gauss-Radau tables and iteration, literals as decimals | polynomial identities, Newton interpolation, explicit error of literals | Radau_Props | 10 |
| C54 | Regularised time transformation | regularised drift/kick, LogH/TTL step scales | derivatives, exact flow of kicks | Reg_Props | 4 |
| C55 | Magnetised-disk tables: where lookups are defined, exact and sign-preserving | magneto-disk tables (digit for digit) and interpolate; binary64 index | vm-free sweep by lra over the tables, Flocq for the failing index | Disk2_Props, Disk_Props | 12 |
| C56 | LogH leapfrog conserves two-body energy exactly | two-body LogH leapfrog | exact conservation identity | Reg2_Props | 3 |
| C57 | Order conditions of the symplectic schemes | scheme coefficients | order conditions as polynomial inequalities by lra | Order_Props | 2 |
| C58 | Bulirsch-Stoer steps conserve momentum | BS over systems with balanced forces | linear invariants through the extrapolation table | BS_Props | 3 |
| C59 | IAS15 step discipline | IAS15 iterate | branch analysis | Radau_Props | 6 |
| C60 | IAS15 runs conserve momentum | IAS15 over systems | linear invariants | Radau_Props | 3 |
| C61 | Post-Newtonian terms are the published equations of motion | PN terms | ring/field against the published formulas (PN_Spec.v) | PN_Props | 5 |
| C62 | Converting an orbit to coordinates and back | coord_to_orbit o orbit_to_coord | conic identities per branch | Orbit_Props, Orbnew_Props | 7 |
| C63 | Semi-latus rectum read from a state | semi-latus rectum overloads | IEEE-style division | Orbit_Props | 3 |
| C64 | Time to periapsis and period | time_to_periapsis, period | derivatives | Anom_Props | 5 |
| C65 | Energy and angular momentum diagnostics | energy diagnostics | list sums, scaling laws | Diag_Props | 9 |
| C66 | General derivative is the equation of motion | evaluate_general_derivative | derivative of the written array; chain version | CDer_Props, Reg_Props | 4 |
| C67 | Particle text forms | operator<</>> of the particle types on text | lexing lemmas, refuted round trips | Part_Props | 9 |
| C68 | Alpha-disk friction: coefficient, smooth join, switch and sign | alpha-disk friction | real analysis at the joins | Alpha_Props, Disk2_Props | 11 |
| C69 | Orbit constructors: what is accepted, what is stored, what is random | Orbit constructors | case analysis over tags; draws arbitrary in range | Orbnew_Props | 4 |
| C70 | Data of registered callbacks: operations remember, stop conditions forget | RunArgs callbacks: by-value/by-reference storage | runs over call histories | Own_Props | 9 |
| C71 | Operations of a concurrent file take effect one at a time | ConcurrentFile operations as programs under a mutex | linearisation order from lock acquisitions | CLin_Props | 9 |
| C72 | Constructed systems; chain runs are plain runs | constructors of the four systems, constant iterator | refinement plain = chain | Build_Props | 10 |
| C73 | The shipped methods on all four particle systems conserve, call by call and over whole simulations | every shipped method on every system | composition of the step theorems over whole simulations | Meth_Props | 12 |
| C74 | IAS15 error estimate and step control | IAS15 error checkers and step controller | order reasoning, limits | Ias2_Props, Ias_Props | 10 |
| C75 | Gauss-Radau methods on all four particle systems | Gauss-Radau on the four systems | linear invariants through the predictor-corrector loop | Rad_Props | 5 |
| C76 | Bulirsch-Stoer order and step selection | order/step selection of BS | optimality over the window | Bsel_Props | 5 |
| C77 | Lazy vector expressions | lazy vectors and arrays: expressions as trees over a heap | evaluation lemma, aliasing analysis | Lazy_Props | 9 |
| C78 | Hierarchy helpers | hierarchical.hpp helpers | structural induction | Hier_Props | 6 |
| C79 | Automatic file names | auto-name | strings, injectivity of counters | Name_Props | 6 |
| C80 | Fixed-point root finder | fixed-point root finder | fuelled loop, contraction | Star_Props | 3 |
| C81 | Stellar radii | stellar radii | continuity and monotonicity per branch | Star_Props | 2 |
| C82 | The physics does not depend on the observer or on the order of the particle list | boosts, translations, rotations, permutations of whole runs | equivariance of force, drift and kick | Inv_Props | 8 |
| C83 | Units and constants are consistent with each other | unit.hpp/consts | rational arithmetic by lra | Unit_Props | 8 |
| C84 | Parallel sub-steps of the Bulirsch-Stoer iterator | two threads of a BS row, interleaved accesses | commuting accesses, log of conflicts | Par_Props | 6 |
| C85 | Array helpers are element-wise, alias-safe and order-free | core-computation helpers on a heap | per-element induction, aliasing | Arr_Props | 22 |
| C86 | Text of tuples and containers reads back | tuple/array/vector text | lexing lemmas | Iotext_Props | 5 |
| C87 | Adaptive runs do not depend on particle order or on the names and signs of the axes | adaptive runs under permutation and signed axis swaps | equivariance of table, error norm and controllers | Axes_Props | 8 |
| C88 | Results with invalid numbers are not accepted | BS rows on reals + infinities + NaN | propagation of NaN through table, checkers and selection | Nan_Props | 13 |
| C89 | A fixed-step run ends at the end time in floating-point arithmetic | main loop and clock with every operation rounded (Flocq FLT) | error recurrence, Sterbenz, ties; witnesses of non-termination | Fsim_Props | 8 |
| C90 | Accuracy of chain coordinates in floating-point arithmetic | to_chain, to_cartesian, get_new_node, update_chain with every vector addition/subtraction rounded (Fchain_Model) | loop invariants giving each entry as a rounded recursion, then induction on the number of links with the relative error of one rounded addition; counterexamples by absorption of a small summand | Fchain_Props | 7 |
| C91 | Newtonian accelerations in floating-point arithmetic | the lambda of add_acc_to with every operation rounded (norm, cube, reciprocal, products, updates), the direct double loop and the three chain loops (Fnewt_Model) | calculus of relative roundings (near/within) with ranges of exponents, induction over the list of calls; the chain's pairs of places are a permutation of all pairs; a three-body system refutes exact conservation | Fnewt_Props | 8 |
| C92 | Vec3 arithmetic on IEEE 754 numbers, special values included | every member and free function of Vec3 on Flocq's IEEE 754 binary_float (both zeros, infinities, one NaN, overflow, gradual underflow), compound assignment on objects that may be the same (Ieee_Model) | case analysis on the constructors where special values are involved, Bplus/Bmult/..._correct of Flocq for finite ones, an order-preserving map to the reals for comparisons; counterexamples computed in double | Ieee_Props, Ieee_Props2 | 22 |
| C93 | Newtonian accelerations: where IEEE arithmetic keeps them finite and right, and how special values spread | the lambda of NewtonianGrav::add_acc_to and its double loop on the same scalars (Ieee_Model) | induction over the list of calls: NaN and non-finite values are never lost; bounds on all intermediate magnitudes give finiteness and equality with the rounding model of C91 | Inewt_Props | 11 |
| C94 | Outputs of TimeSlice on IEEE 754 times | TimeSlice (constructor, call, reset) over Flocq's binary_float, the size_t converted by binary_normalize; assert not modelled | invariant: pending slot = repeated rounded addition; induction on the number of outputs for the drift; grid argument for exactness; doubles computed for the refutations | Islice_Props | 10 |
| C95 | Compensated numbers on IEEE 754 arithmetic | the three types of kahan-number.hpp over Flocq's binary_float; numbers are objects in a heap, each statement reads and writes members in the order of the C++ text | case analysis on finiteness of sum and operand; monotonicity of rounding bounds the intermediate differences by the operands, so a finite sum implies finite compensation; link to Kahan_Model and C38; induction on statement histories; doubles computed for the refutations | Ikah_Props | 18 |
| C96 | Root finding in machine arithmetic: returns, and what is returned | root_bisection, root_newton and the parabolic equation over Flocq's binary_float, callable an arbitrary function of the format; non-termination = no number of rounds after which the condition is false | format lemmas on the rounded midpoint (stays between the ends, moves unless neighbouring), well-founded descent on the width in units of the last place; bracketing by the sign of a product that does not underflow; intermediate value theorem for the root; doubles computed for the refutations | Ibis_Props | 14 |
| C97 | Eccentric anomaly from mean anomaly in machine arithmetic | M_anomaly_to_E_anomaly over Flocq's binary_float: order of the tests, the three lambdas, root_bisection of C96; sin/sinh parameters with a stated accuracy | forward error analysis of the three lambdas; bracketing of C96; intermediate value theorem up to the error; growth of the Kepler functions (1-e, e-1, 1) turns residual into distance; lattice of special values by case analysis; invariant for the hang | Ianom_Cases, Ianom_Props | 10 |
| C98 | Work-stealing queue: every interleaving looks like a double-ended queue | tf::TaskQueue of tsq.hpp: push, pop, steal, resize, size, empty, capacity as a small-step machine, one step per atomic access, one owner and any number of thieves; sequentially consistent (memory orders and 64-bit overflow not modelled) | inductive invariant over all interleavings (owner's and thieves' local knowledge, arrays kept until the destructor); forward simulation with linearisation points to a double-ended queue; balance of items as a permutation carried along; rank function for wait-freedom | Tsq_Props | 7 |
| C99 | Scalar helpers and step control on IEEE 754 numbers | math.hpp in_range/abs/step/sign/iseq and PIDController (constructor, next with one error, limiter) over Flocq's binary_float; pow a parameter | order of floats through their extended-real key; monotonicity of correct rounding with overflow; spacing of the format above 1 and in [1/2,1); pow assumed to map [0,1] and [1,inf) into themselves | Inum_Cases, Inum_Props, Inum_Props2 | 15 |

## What is not modelled

* **Code that does not compile** (checked by reading; nothing can be said about its behaviour):
  `interaction/disk.hpp`, `particle-system/octree.hpp`, `get_hierarchical_struct` of `scattering/hierarchical.hpp`,
  `ConcurrentDeque::try_pop_*` of `multi-thread/concurrent-queue.h` (never included), `tools/any-vector.hpp`,
  the overload `E_tid` without sizes, `Costream::operator<<`, assignment of lazy expressions to large `Larray`s or slices,
  `operator>>` on whole systems (rvalue cast), `array_div_scale`/`array_scale` in debug mode.
* **Not compiled in**: `vector3d.hpp`, `vector3pd.hpp` (includes commented out), `lazy-evaluation/mkl-array.h`, MPFR scalars (`mpfr.hpp`).
* **Third-party**: of the bundled `taskflow/` only the work-stealing queue (C98), the execution of a task graph (C100), the notifier (C101), the workers' sleep/wake protocol (C102), the parallel loops (C103) and the reductions (C104) are modelled, under sequentially consistent memory; its other algorithms, observers, dynamic tasking and profiling are not. `small-vector.hpp` is used as a plain vector, the C++ standard library (its documented behaviour is assumed).
* **Compile-time plumbing**: concepts, type traits, the method aliases of `spaceHub.hpp` (their composition is in Meth, C73), macros other than the SoA/visitor ones used by the containers.
* **Not idealised away but out of scope**: overflow of floating-point numbers (except as infinities in C88), weak memory effects, exceptions thrown by allocation.

## How the theorems are tested

`seeded/LOG.jsonl` records every edit of a model definition that imitates a realistic bug, the claim it breaks and the theorems
that fail; edits that survived led to new or stronger theorems (field `theorems_tightened`) or are explained as equivalent.

## Trusted base

* Coq's kernel (checked again by `coqchk` in `vcheck`); no plugin, no native code, no kernel check switched off.
* The standard library's axioms listed below, and nothing else: no axiom of this development, no `Admitted`, no section-less `Variable`.
  The only other library used is Flocq (formats and rounding); it brings no further axiom (see the list).
* The faithfulness of the transcription: the cited lines against the definitions, including the idealisation of scalars described above.
* The reading of the English property in `properties.jsonl` as the Coq statement.

### Axioms per theorem (`Print Assumptions`)

All are axioms of the standard library (Reals, Logic). Abbreviations: F = `FunctionalExtensionality.functional_extensionality_dep`, S = `ClassicalDedekindReals.sig_forall_dec`, N = `ClassicalDedekindReals.sig_not_dec`, C = `Classical_Prop.classic`; "none" = closed under the global context.

* **C01** — none: `C01_loop_coverage`, `C01_loop_defined`, `C01_full_coverage_refuted`, `C01_small_totals_dropped`, `C01_forwarded_arguments`
* **C02** — none: `C02_pool_fifo`, `C02_pool_at_most_once`, `C02_commit_rule`, `C02_no_lost_wakeup`, `C02_history`, `C02_no_empty_pop`
* **C03** — none: `C03_no_start_after_stop`, `C03_all_tasks_run_refuted`, `C03_destructor_terminates_refuted`, `C03_clean_shutdown`, `C03_destroyed_means_joined`
* **C04** — none: `C04_file_is_prefix`, `C04_complete_at_destruction`, `C04_destructor_terminates`, `C04_no_lost_wakeup`, `C04_complete_refuted`, `C04_ended_writer_writes_nothing`, `C04_file_merges_pushes`, `C04_pushes_enqueued`, `C04_no_empty_pop`, `C04_empty_pop_refuted`
* **C05** — none: `C05_delivered_in_order`, `C05_end_means_complete`, `C05_no_junk_refuted`, `C05_no_deadlock`, `C05_destructor_terminates`, `C05_reader_returns_refuted`, `C05_missing_file_never_ends`, `C05_buffer_bounded`, `C05_destroyed_means_joined`, `C05_destroyable`
* **C06** — none: `C06_records_atomic`, `C06_records_atomic_always`, `C06_no_deadlock`, `C06_chain_atomic_refuted`
* **C07** — F S: `C07_callback_protocol`, `C07_zero_step_scale`, `C07_abort_iff`, `C07_step_sequence`
* **C08** — F S: `C08_stop_rule`, `C08_no_step_when_stopped`, `C08_returns_only_when_stopped`
* **C09** — F S: `C09_end_time_reached`, `C09_adaptive_end_time`
* **C10** — F S: `C10_start_beyond_end_diverges`
* **C100** — none: `C100_passes`, `C100_once_per_pass`, `C100_future_once`, `C100_future_after_run`, `C100_wait_for_all`, `C100_counters`, `C100_no_deadlock`, `C100_terminates`, `C100_runs_complete`, `C100_run_n`, `C100_no_source_hangs_refuted`, `C100_cycle_order_refuted`
* **C101** — none: `C101_notify_all`, `C101_notify_one`, `C101_exact`, `C101_events`, `C101_served`, `C101_no_lost_wakeup`, `C101_client`, `C101_turns`, `C101_asserts`, `C101_word`, `C101_constructor`, `C101_epoch_wrap_refuted`, `C101_refines`
* **C102** — none: `C102_rest`, `C102_served`, `C102_own_queue`, `C102_thief`, `C102_shutdown`, `C102_join`, `C102_submitted`, `C102_call_returns`, `C102_conserved`, `C102_all_taken`
* **C103** — none: `C103_each_once`, `C103_never_twice`, `C103_returns`, `C103_index`, `C103_range`, `C103_zero_step_refuted`
* **C104** — none: `C104_result`, `C104_some_order`, `C104_returns`, `C104_mutex`, `C104_chunks_result`, `C104_chunks_some_order`, `C104_chunks_returns`, `C104_chunks_mutex`
* **C11** — none: `C11_step_slice_fires`, `C11_step_slice_count`, `C11_interval_zero_undefined`, `C11_reset`
* **C12** — F S: `C12_time_slice_times`, `C12_time_slice_bound`, `C12_time_slice_rule`, `C12_reset`
* **C13** — C F N S: `C13_long_interval`, `C13_always_returns_refuted`, `C13_short_interval_never_fires`, `C13_reset_refuted`; F S: `C13_next_slot_after`, `C13_hang`
* **C14** — F S: `C14_energy_reference_shared`; none: `C14_header_once`, `C14_header_always_refuted`
* **C15** — F S: `C15_chain_index_permutation`, `C15_returns`; S: `C15_too_few_undefined`
* **C16** — F S: `C16_closest_pair_adjacent`, `C16_greedy_from_rank_two`, `C16_nearest_neighbour_refuted`
* **C17** — F S: `C17_cartesian_round_trip`, `C17_chain_round_trip`; S: `C17_chain_entries`
* **C18** — F S: `C18_update_chain`, `C18_physical_state_unchanged`
* **C19** — F N S: `C19_symmetric_terms`, `C19_chain_potential_energy`, `C19_single_particle_undefined`; F S: `C19_chain_visits_every_pair_once`, `C19_chain_acceleration`; none: `C19_all_pairs`
* **C20** — F N S: `C20_newton_sum`, `C20_momentum`, `C20_angular_momentum`, `C20_translation`
* **C21** — C F N S: `C21_terms_additive`; F S: `C21_total`, `C21_extra`; S: `C21_empty_part_leaves_array`
* **C22** — F N S: `C22_tidal_momentum`, `C22_tidal_angular_momentum`, `C22_no_tide`, `C22_attractive`
* **C23** — F N S: `C23_relabelling`, `C23_pn2_symmetric_refuted`
* **C24** — C F N S: `C24_capture_force_nonneg`, `C24_capture_density`, `C68_moved_system`; F N S: `C24_gas_drag`, `C24_disk_drag`, `C24_disk_velocity`, `C68_gas_velocity`
* **C25** — F N S: `C25_simple_conserves_newton`, `C25_regularised_conserves_newton`, `C25_regularised_conserves`, `C25_chain_conserves_newton`, `C25_archain_conserves_newton`, `C25_archain_refines_regularised`; F S: `C25_simple_conserves`, `C25_chain_refines_simple`, `C25_reindex_moves_nothing`
* **C26** — F N S: `C26_regularised_reversible`, `C26_archain_reversible`; F S: `C26_palindromic`, `C26_simple_reversible`, `C26_chain_reversible`
* **C27** — F S: `C27_time_advance`, `C27_chain_time_advance`, `C27_sums_exact`, `C27_sums_close`, `C27_step_time_error`, `C26_palindromic`
* **C28** — F S: `C28_chain_round_trip`, `C28_archain_round_trip`; S: `C28_length`, `C28_simple_round_trip`, `C28_regularised_round_trip`, `C28_wrong_length_aborts`, `C28_read_then_write`
* **C29** — F N S: `C29_regularised_increment`, `C29_archain_increment`; F S: `C29_simple_increment`, `C29_chain_increment`; none: `C29_increment_in_bounds`
* **C30** — F N S: `C30_kick_uses_external_power`, `C30_kick_uses_external_power_dep`, `C30_derivative_uses_total_power`, `C30_rates_agree_iff`, `C30_rates_agree_refuted`
* **C31** — F S: `C31_unique_polynomial`, `C31_table_extrapolates`, `C31_exact_on_polynomials`
* **C32** — F N S: `C32_systems_replay`, `C32_regularised_step`, `C32_dkd_rows_are_leapfrog`; F S: `C32_accepted_is_extrapolated`, `C32_simple_step`, `C32_all_rejected_aborts`, `C32_first_call`, `C32_kdk_rows_are_leapfrog`
* **C33** — F S: `C33_in_bounds`, `C33_first_call_in_bounds`, `C33_last_row_first_refuted`
* **C34** — F S: `C34_row_advances_time`, `C34_time_advances_k_plus_2`, `C34_single_step_refuted`, `C34_example_calls_exist`, `C34_midpoint_rule`, `C34_row_is_trapezoidal`, `C34_row_exact_for_linear`, `C34_time_of_every_call`, `C34_rejected_time_restored_refuted`, `C34_selection`, `C34_exact_rows`, `C34_never_shortens`, `C34_consistent_refuted`; S: `C34_midpoint_sequence_exists`
* **C35** — C F N S: `C35_limited`, `C35_limits_straddle_one`, `C35_value`, `C35_value_two_errors`, `C35_zero_error`, `C35_monotone`, `C35_failed_step_shrinks`, `C35_nan_refuted`, `C35_order_limit`, `C35_set_limiter_has_no_effect`, `C35_infinite_error`, `C35_special_pairs`
* **C36** — F N S: `C36_rms`, `C36_rms_component`, `C36_rms_skips_refuted`; F S: `C36_worst_offender`, `C36_worst_offender_vec`, `C36_worst_offender_diff`, `C36_max_ratio`, `C36_max_ratio_refuted`, `C36_max_ratio_arrays`, `C36_comparisons`, `C36_division`
* **C37** — F S: `C37_converged`, `C37_not_converged`, `C37_simple_system_restarts`, `C37_finest_refuted`, `C37_nan_never_converges`; none: `C37_const_iterator`
* **C38** — C F N S: `C38_kahan_add_exact`, `C38_kahan_any_order_refuted`, `C38_neumaier_add_exact`, `C38_klein_add_exact`, `C38_subtraction_is_addition`, `C38_neumaier_sum_error`, `C38_kahan_sum_error`, `C38_klein_sum_error`, `C38_multiplication_refuted`, `C38_klein_read_refuted`
* **C39** — F N S: `C39_result`, `C39_terminates`; F S: `C39_bracket`, `C39_deterministic`, `C39_no_sign_change_returns_low`, `C39_root_at_zero_loops`
* **C40** — F N S: `C40_composition`, `C40_rigid`, `C40_identity`, `C40_inverse`
* **C41** — F N S: `C41_orbit`, `C41_helpers`, `C41_orientation`, `C41_state_invariants`, `C41_a_e_L`; F S: `C41_angular_momentum`
* **C42** — C F N S: `C42_ellipse_E_to_T`, `C42_ellipse_T_to_E`, `C42_ellipse_inverse`, `C42_ellipse_range`, `C42_hyperbola_E_to_T`, `C42_hyperbola_T_to_E`, `C42_parabola`, `C42_kepler_ellipse`, `C42_mean_inverse`, `C42_unreduced_mean_anomaly_refuted`, `C42_kepler_hyperbola`, `C42_kepler_parabola`, `C42_classify`, `C42_shuffle`, `C42_mean_to_true`
* **C43** — F N S: `C43_move`, `C43_variadic`, `C43_com_frame`, `C43_hierarchy`; F S: `C43_move_pos`, `C43_move_vel`
* **C44** — C F N S: `C44_tidal_radius`, `C44_time_to_periapsis`, `C44_sign_blind_refuted`, `C44_tidal_radius_size`, `C44_tidal_radius_massless`; F N S: `C44_energies`, `C44_inner_invariant`, `C44_size`, `C44_size_single`, `C44_tidal_sizes`, `C44_tidal_factor_refuted`, `C44_period`, `C44_two_clusters`, `C44_variadic`, `C44_E_tid`
* **C45** — C F N S: `C45_hyperbolic`, `C45_head_on`, `C45_b_max`, `C45_tidal_radius`, `C45_incident_clusters`, `C45_incident_close_start_refuted`, `C45_b_max_tidal`, `C45_b_max_clusters`; F N S: `C45_b_max_increasing`, `C45_critical_vel`, `C45_critical_vel_clusters`; F S: `C45_hard_radius`
* **C46** — F N S: `C46_factor`, `C46_wrong_unless_unit_mass_refuted`
* **C47** — none: `C47_point_history`, `C47_size_history`, `C47_drag_history`, `C47_tide_history`, `C47_ids_are_indices`, `C47_ids_after_growth_refuted`
* **C48** — F N S: `C48_reports_touching_pairs`, `C48_order_irrelevant`, `C48_translation`
* **C49** — none: `C49_last_definition`, `C49_get`, `C49_white_space_ignored`, `C49_comments_ignored`, `C49_read_only_refuted`, `C49_blanks_in_values_refuted`, `C49_line_without_divider`, `C49_empty_value_refuted`
* **C50** — none: `C50_assigns_in_order`, `C50_wrong_count_aborts`, `C50_blank_shifts_refuted`, `C50_empty_argument_refuted`
* **C51** — F S: `C51_active_time`, `C51_new_timer`, `C51_restart_discards`, `C51_restart_refuted`, `C51_milliseconds_refuted`; none: `C51_every_history`
* **C52** — C F N S: `C52_normal2`, `C52_normal2_never_returns`, `C52_logarithm`, `C52_power_law_range`, `C52_share`, `C52_power_law_distribution`, `C52_power_law_precondition`, `C52_power_law_precondition_refuted`, `C52_power_law_cases`, `C52_power_law_from_zero`; F N S: `C52_truncated_maxwellian`, `C52_empty_range_never_returns`; F S: `C52_boundaries`, `C52_draw_in_range`, `C52_draw_is_first`, `C52_draw_returns_iff`, `C52_default_boundary_refuted`, `C52_nan_drawn_refuted`, `C52_truncated_normal`, `C52_default_limits`, `C52_fixed_zero_refuted`
* **C53** — C F N S: `C53_quadrature_order`; F S: `C53_tables_inverse`, `C53_newton_and_monomial_forms`, `C53_predictor`, `C53_states_on_path`, `C53_path_is_the_integral`, `C53_pass_interpolates`, `C53_fixed_point_collocates`, `C53_tables_stay_consistent`, `C53_nodes_increasing`
* **C54** — F N S: `C54_kick`, `C54_new`, `C54_flow`; F S: `C54_drift`
* **C55** — C F N S: `C55_radius_lookup_defined`, `C55_friction_coefficient`, `C55_friction_nodes`, `C55_friction_in_table_refuted`, `C55_drag`, `C55_gas_velocity`, `C55_one_sense_of_rotation_refuted`, `C55_relative_velocity`, `C55_units`; F S: `C55_radius_lookup_values`, `C55_continuous_density_refuted`, `C55_interpolate_below`
* **C56** — F N S: `C56_step`, `C56_bound_orbit_forever`, `C56_constructed`
* **C57** — F S: `C57_compositions_of_leapfrog`, `C57_order_conditions`
* **C58** — F N S: `C58_regularised_conserves_momentum`, `C58_newton_instance`; F S: `C58_simple_conserves_momentum`
* **C59** — C F N S: `C59_acceptance_threshold`; F N S: `C59_pass_succeeds_on_systems`; F S: `C59_accepted_step`, `C59_step_only_shrinks`, `C59_bounded_without_rejection`, `C59_unbounded_rejections_refuted`
* **C60** — F N S: `C60_regularised_conserves`; F S: `C60_simple_conserves`, `C60_simple_time`
* **C61** — F N S: `C61_pn1`, `C61_pn25`, `C61_pn2`, `C61_pn2_published_refuted`, `C61_circular_decay`
* **C62** — C F N S: `C62_shape`, `C62_inclined`, `C62_planar`, `C62_circular`, `C62_circular_planar`, `C62_roundtrip_refuted`, `C62_guarded_acos`
* **C63** — C F N S: `C63_value_overload`, `C63_parabola_refuted`; F N S: `C63_reference_overload`
* **C64** — C F N S: `C64_ellipse`, `C64_hyperbola`, `C64_parabola`, `C64_overloads`, `C64_period`
* **C65** — C F N S: `C65_fall_free`, `C65_energy_error_regu`; F N S: `C65_values`, `C65_conserved`, `C65_energy_error`; F S: `C65_isolated`, `C65_isolated_invariant`, `C65_isolated_pair`, `C65_com`
* **C66** — F N S: `C66_regularised_derivative`, `C66_archain_derivative`; F S: `C66_derivative`, `C66_chain_derivative`
* **C67** — none: `C67_point_csv`, `C67_size_csv`, `C67_drag_csv`, `C67_tide_csv`, `C67_point_round_trip_refuted`, `C67_size_round_trip_refuted`, `C67_drag_round_trip_refuted`, `C67_tide_round_trip_refuted`, `C67_reads_blank_separated`
* **C68** — C F N S: `C68_coefficient`, `C68_smooth`, `C68_continuous_at_a_tenth_refuted`, `C68_force_switch`, `C68_drag`, `C68_density`, `C68_moved_system`, `C68_scale_height`, `C68_no_accretion_no_height`; F N S: `C68_keplerian_gas`, `C68_gas_velocity`
* **C69** — C F N S: `C69_kepler_orbit`, `C69_isotropic`, `C69_elliptic`, `C69_hyperbolic`
* **C70** — F S: `C70_conditions_forget`, `C70_operations_remember`, `C70_step_slice_operation`, `C70_time_slice_operation`, `C70_step_slice_condition`, `C70_time_slice_condition`, `C70_sliced_condition_every_nth_refuted`, `C70_settings`; none: `C70_registration`
* **C71** — none: `C71_linearizable`, `C71_no_deadlock`, `C71_reentrant_callback_refuted`, `C71_readers_share_the_words`, `C71_read_loop_uses_every_word_once`, `C71_blocks_of_execute_stay_together`, `C71_eof_then_read_refuted`, `C71_eof_trailing_space_refuted`, `C71_reads_and_eof`
* **C72** — F N S: `C72_regularised_new`, `C72_archain_new`, `C72_chain_of_one_undefined`, `C72_chain_run_is_simple_run`, `C72_archain_run_is_regularised_run`, `C72_regularised_run_conserves`, `C72_chain_run_conserves`; F S: `C72_chain_new`, `C72_simple_run_conserves`; S: `C72_simple_new`
* **C73** — F N S: `C73_chain_bs_call`, `C73_archain_bs_call`, `C73_chain_bs_defined`, `C73_archain_bs_defined`, `C73_built_ready`, `C73_bs_runs_conserve`, `C73_chain_sequent_call`, `C73_archain_sequent_call`, `C73_sequent_runs_conserve`, `C73_AR_Chain_simulation`; F S: `C73_simulation`; S: `C73_fresh_iterator`
* **C74** — C F N S: `C74_controller`, `C74_simple_call`, `C74_regularised_call`, `C74_error_of_every_step_seen_refuted`; F N S: `C74_estimate`, `C74_translation_invariance_refuted`, `C74_slow_particles`; F S: `C74_converged`, `C74_all_zero_never_converges`; S: `C74_counted_entries`
* **C75** — C F N S: `C75_no_undefined_behaviour`, `C75_time`, `C75_momentum`, `C75_constant_step_after_reordering`, `C75_constant_step_call`
* **C76** — F N S: `C76_regularised_system`; F S: `C76_deterministic`, `C76_selection`, `C76_simple_system`; S: `C76_initial`
* **C77** — F S: `C77_scaled_by_own_component_refuted`, `C77_max_min`; S: `C77_assignment`, `C77_own_component_as_operand`, `C77_construct`, `C77_reverse_in_place_refuted`, `C77_slice_fill`; none: `C77_slices`, `C77_slices_refuted`
* **C78** — F N S: `C78_bound_answer`, `C78_unbound_answer_refuted`, `C78_most_bound`; S: `C78_init_list`; none: `C78_names_distinct`, `C78_to_string`
* **C79** — none: `C79_distinct_names`, `C79_form`, `C79_one_prefix`, `C79_two_prefixes_refuted`, `C79_make_name`, `C79_make_name_across_prefixes_refuted`
* **C80** — F S: `C80_result`, `C80_contraction`, `C80_finds_root_refuted`
* **C81** — C F N S: `C81_radii`, `C81_monotone`
* **C82** — F N S: `C82_accelerations`, `C82_energy`, `C82_pn1_boost_refuted`, `C82_newton_covariant`, `C82_pn_covariant`, `C82_regularised_run`, `C82_chain_run`; F S: `C82_simple_run`
* **C83** — C F N S: `C83_year`; F S: `C83_conversion`, `C83_durations`, `C83_lengths`, `C83_masses`, `C83_speeds`, `C83_gravitational_constant`, `C83_boltzmann_over_proton_refuted`
* **C84** — F N S: `C84_every_interleaving`, `C84_can_finish`, `C84_first_call_agrees`, `C84_first_call_exists`; none: `C84_later_calls_refuted`, `C84_overlapping_call_refuted`
* **C85** — F S: `C85_advance_is_model`, `C85_add_is_model`, `C85_radau_is_model`; none: `C85_array_sub`, `C85_array_div`, `C85_coord_dot`, `C85_array_advance`, `C85_array_scale`, `C85_array_advance_to`, `C85_array_transform`, `C85_array_add`, `C85_array_mul`, `C85_set_arrays_zero`, `C85_any_schedule_pack`, `C85_any_schedule_unary`, `C85_any_schedule_binary`, `C85_array_dot`, `C85_coord_contract`, `C85_coord_contract2`, `C85_error_terms_round_trip`, `C85_error_terms_round_trip_vectors`, `C85_error_terms_keep_values`
* **C86** — none: `C86_round_trip`, `C86_display_round_trip`, `C86_one_too_many`, `C86_csv_columns`, `C86_print_round_trip_refuted`
* **C87** — F N S: `C87_checkers_blind`, `C87_bs_regularised`, `C87_sequent`, `C87_newton`, `C87_turned_axes_refuted`; F S: `C87_axis_change_isometry`, `C87_bs_simple`, `C87_origin_refuted`
* **C88** — C F N S: `C88_finite_runs`, `C88_duplicated_accepted_refuted`, `C88_duplicated_run_refuted`, `C88_rms_call`, `C88_rms_refuses`; F N S: `C88_checkers_on_numbers`, `C88_rms_reports`, `C88_safe_run_is_run`; F S: `C88_worst_offender_ignores_refuted`, `C88_max_ratio_ignores_refuted`, `C88_overflow_ignored_refuted`, `C88_overflow_reported`; S: `C88_start`
* **C89** — C F N S: `C89_plain_run`, `C89_compensated_run`, `C89_plain_double`, `C89_compensated_double`, `C89_too_small_steps_refuted`, `C89_exact_end`, `C89_overshoot_refuted`, `C89_zero_tolerance_refuted`
* **C90** — C F N S: `C90_links`, `C90_round_trip`, `C90_reindex`, `C90_exact`, `C90_grid`, `C90_round_trip_refuted`, `C90_reindex_refuted`
* **C91** — C F N S: `C91_direct`, `C91_momentum`, `C91_calls`, `C91_chained`, `C91_chained_true`, `C91_range`, `C91_equal_pair`, `C91_momentum_refuted`
* **C92** — C F N S: `C92_rounded`, `C92_commute`, `C92_antisymmetric`, `C92_same_means_equal`, `C92_self`, `C92_norm`, `C92_distance`, `C92_norm_in_range`, `C92_norm_accurate`, `C92_abs`, `C92_max`, `C92_max_abs_exact`, `C92_max_nan`, `C92_associative_refuted`, `C92_norm_range_refuted`, `C92_abs_zero_refuted`, `C92_cross_self_refuted`, `C92_antisymmetric_bits_refuted`, `C92_integers_exact`, `C92_constructed`; none: `C92_assign`, `C92_max_nan_refuted`
* **C93** — C F N S: `C93_in_range`, `C93_accurate`, `C93_sticky`, `C93_coincident`, `C93_nan_position`, `C93_infinite_position`, `C93_too_close`, `C93_too_far`, `C93_mass`, `C93_close_refuted`, `C93_far_refuted`
* **C94** — C F N S: `C94_rule`, `C94_nan`, `C94_zero_number`, `C94_accurate`, `C94_bound`, `C94_exact`, `C94_stuck`, `C94_reset`, `C94_end_output_refuted`, `C94_bound_refuted`
* **C95** — C F N S: `C95_operands`, `C95_other_objects`, `C95_self`, `C95_scale`, `C95_fresh`, `C95_neumaier_no_overflow`, `C95_klein_no_overflow`, `C95_kahan_no_overflow`, `C95_neumaier_exact`, `C95_klein_exact`, `C95_neumaier_list`, `C95_klein_list`, `C95_infinite_then_nan`, `C95_finite_history`, `C95_kahan_finite_refuted`, `C95_self_subtraction_refuted`, `C95_negation_refuted`, `C95_infinity_kept_refuted`
* **C96** — C F N S: `C96_terminates_or_tiny`, `C96_terminates_away`, `C96_terminates`, `C96_result`, `C96_root`, `C96_silent`, `C96_nan`, `C96_root_at_zero_ends`, `C96_parabolic`, `C96_always_returns_refuted`, `C96_newton`, `C96_newton_nan`, `C96_finds_sign_change_refuted`, `C96_newton_root_refuted`
* **C97** — C F N S: `C97_small_M`, `C97_abort`, `C97_returns`, `C97_elliptic`, `C97_hyperbolic`, `C97_parabolic`, `C97_out_of_range`, `C97_nan_M`, `C97_infinite_e_aborts_refuted`, `C97_case_library`
* **C98** — none: `C98_linearizable`, `C98_each_item_once`, `C98_size`, `C98_capacity`, `C98_owner_wait_free`, `C98_thief_wait_free`, `C98_steal_alone`
* **C99** — C F N S: `C99_in_range`, `C99_in_range_special`, `C99_step_sign`, `C99_iseq_symmetric`, `C99_iseq`, `C99_iseq_large`, `C99_parabolic`, `C99_limits_enclose_one`, `C99_step_factor_in_limits`, `C99_step_factor_at_ends`, `C99_order_zero`, `C99_step_factor_monotone`, `C99_tame_pow`, `C99_exponent`; none: `C99_abs`
