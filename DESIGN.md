# Formal model of j507/gCP in Rocq (Coq 8.16.1)

gCP is a deal.II/Trilinos program for gradient-extended crystal plasticity with damaging grain boundaries.
`/repo` was read as text and never built.  The model is 20 odd files of Gallina definitions; the
properties (`properties.jsonl`, C01...) are theorems about those definitions.

## 1. Architecture of the development (rocq/theories)

* `Num.v`          loop sums, `result` (`Ok` / `Throw` = C++ exception / `UB` = undefined behaviour), IEEE-style
                   extended values `xr` (finite / +-inf / NaN with the IEEE comparison rules), `std::pow`.
* `Model*.v`       the model: one Gallina definition per C++ function, each with a file:lines citation
                   and a note of what was simplified.  No proofs live there.
* `Spec*.v`        small, model-independent specifications ("orthonormal", "derivative", "path independent",
                   "average", "what the manual says about an entry" ...).
* `Proof*.v`       lemmas.
* `Prop*.v`        the property theorems `Cnn_...`, each followed by `Print Assumptions`, and `Example`s (`Cnn_nonvacuous...`)
                   showing that the hypotheses are met by a concrete non-trivial case.

Naming: `_refuted` = the English claim (or the named part of it) is false of the code, with a machine-checked witness;
`_partial` = the provable part of a claim that is not true in full.  What is missing is in the MANIFEST note.

## 2. Modelling decisions

* `double` is modelled by the real numbers `R` (no rounding, no overflow) except where rounding *is* the property:
  the step plan and the end-of-run detection (C50, C51, C52, C55) are proved both over `R` and for IEEE binary64 with
  Flocq's `Bplus`/`Bminus`/... .  Where the C++ can produce a division by zero, 0/0 or the root of a negative number
  *and the property is about that*, the model computes in `xr`.  Elsewhere the guard that makes the expression
  defined is an explicit hypothesis of the theorem.
* deal.II tensors are functions of indices below `dim`; contractions are loop sums `sumn`; block vectors are functions
  of a block and an index (or of a dof).
* Finite-element data (shape functions, JxW, quadrature, dof maps, mesh topology) are arbitrary functions or records:
  the theorems quantify over every mesh and element.  Where a fact about deal.II is used it is a named hypothesis
  (`primitive`: each shape function has one non-zero component; `conforming`, partition of unity, ...).
* Linear solvers, residual norms, MPI reductions, the OS and the file system are oracles: theorems quantify over every
  behaviour (answer streams), including infinite and failing ones.
* MPI: owned dofs/cells are a partition of lists over ranks; results are shown independent of the partition where that
  is the claim.  Threads (WorkStream): interleavings of the atomic reads and writes of the two workers (C80 only).
* `AssertThrow` is modelled (outcome `Throw`); `Assert` (debug only) is not relied upon, release builds are what is modelled;
  where a debug assertion is the only guard, the release behaviour is modelled (often `UB`).

## 3. Trusted base

1. Coq's kernel (8.16.1; no `-type-in-type`, no `Unset Guard Checking`, no plugins, no native_compute).
2. The axioms of the *standard library* listed by `Print Assumptions` (section 7): `ClassicalDedekindReals.sig_forall_dec`,
   `ClassicalDedekindReals.sig_not_dec`, `FunctionalExtensionality.functional_extensionality_dep` (construction of `R` and its
   completeness) and `Classical_Prop.classic` (through Coquelicot and Flocq).  Coquelicot (derivatives, integrals) and Flocq
   (binary64) are used as libraries of definitions and proved lemmas; they contribute no axioms of their own.
   No axiom, `Admitted`, section-less `Variable`/`Hypothesis`/`Parameter`, functor or module type is declared here.
3. The transcription C++ -> Gallina (reviewable by the citations) and the statements in `Spec*.v`.
4. The conventions of deal.II/C++ stated where they are used: `ParameterHandler` (declare/parse/get, last assignment wins,
   patterns; ModelParams), `DiscreteTime` (ModelLoading), `AffineConstraints` (add_line, merge, distribute, condensing;
   ModelActiveSet, ModelLinear, ModelShear), FE numbering of FESystem (ModelShear), `SolverControl` (ModelKrylov),
   `std::ofstream`, `std::filesystem` and `std::getline` (ModelIO).

## 4. What is modelled and what is not

| source | modelled | not modelled |
|---|---|---|
| line_search.cc | all (C01-C04); its use in solve.cc (C05) | - |
| utilities.cc | residual norms (C42), sigmoids, macaulay, signum (C06-C08), Logger (C58), file comparison (C57) | formatting of printed numbers |
| quadrature_point_history.{h,cc} | all: slip-resistance history (C09-C11), interface history and storage (C12-C17, C72), race of two workers (C80) | - |
| crystal_data.cc | rotation, Schmid tensors (C18-C20), readers (C67), crystal count (C68) | reading of orientation floats (`std::stod` is a parameter) |
| constitutive_laws.{h,cc} | all laws and derivatives (C21-C35) | - |
| assembly.cc | bulk and face residual/Jacobian (C36-C38, C65, C69, C70, C34, C64), projection of damage (C66), trial microstress (C75), interface history update (C16, C80), sweeps over the cells of any rank (C90), assembly over ranks (C91), residual and norms of a whole body (C92), its Newton matrix (C93, C96), its energy balance (C95) | scratch reinitialisation, `copy_local_to_global` beyond addition |
| active_set.cc, setup.cc, gradient_crystal_plasticity_solver.cc | active sets (C43-C45), Newton constraints, sparsity (C76, C77); init, the set_ functions for the loads and the constructor as calls on an object (C106, C107) | Trilinos maps, hanging nodes, debug-only checks |
| solve.cc | monolithic, bouncing, embracing loops (C46-C48, C74), extrapolation (C49), Krylov calls (C79), Schur reduction (C78), whole steps and runs on the data members (C87-C89) | AMG preconditioner, print-outs |
| fe_field.cc | component layout (C39), set-up order (C40), histories (C41), norms (C42) | deal.II `distribute_dofs`, renumbering |
| boundary_conditions.cc | displacement and load control (C52, C53) | - |
| postprocessing.cc | Postprocessor (C59, C62, C63), Homogenization (C60, C71), damage (C61), SimpleShear table (C83), table rows and columns (C98) | vtu writing, `DataOut` |
| run_time_parameters.cc | every parameter struct simple_shear uses: declaration, reading, checks, defaults (C84-C86) | `SemicoupledParameters` (no application uses it) |
| applications/simple_shear.cc | command line (C56), material ids (C54), constraints (C73, C81, C82), time loop (C50, C51, C55), output cadence (C55), run() as a whole (C97), text files (C98) | mesh generation, p4est partition, checkpointing |

## 5. Plan per property

See properties.jsonl for the statements.

| ids | model | method |
|---|---|---|
| C01-C04 | ModelLineSearch: get_lambda over `xr`, loop with arbitrary objective stream | case analysis, induction on trials, `field`/`nra` |
| C05 | block-vector model of store/reset/update_trial_solution | induction over lambdas, then whole iterations of the three algorithms (PropStep.v); constrained dofs follow their lines after any steps (PropTrialLines.v); refuted for the micro block |
| C06-C08 | ModelUtilities: five sigmoids over R | Coquelicot derivatives, monotonicity by derivative sign |
| C09-C11 | ModelHistory state machine over op lists | invariants by induction on op lists |
| C12-C16, C72 | ModelInterface state machine | invariants; refutations for M1 |
| C17 | association map keyed by ordered cell ids | refinement to a map on unordered pairs |
| C18-C20 | ModelCrystal: rotation matrices, slip systems | trigonometric identities, generic loop-sum algebra |
| C21-C24 | ModelElastic | loop-sum algebra, sum of squares for positivity |
| C25-C29 | ModelMicro | sigmoid lemmas, Coquelicot, sums of squares |
| C30-C35 | ModelCohesive | exp inequalities, derivatives |
| C36-C38, C65, C69, C70 | ModelAssembly: per-cell loops with arbitrary FE data | derivative of loop sums, quadratic forms, virtual power |
| C64 | two parameterisations of the same cell | relational proof term by term |
| C39-C42 | ModelFEField | arithmetic, op-list induction |
| C43-C45 | ModelActiveSet: iteration over dof lists with constraint maps | list induction |
| C46-C49 | ModelSolver: control flow with oracles | fuelled loops, invariants, well-founded descent |
| C50-C56 | ModelLoading, ModelApp | sums, induction, Flocq error bounds, strings |
| C57, C58, C67, C68 | ModelIO, ModelCrystal | list induction |
| C59-C63, C66, C71 | ModelPost | sums, weighted averages, permutations of ranks |
| C73, C74 | ModelFEField/ModelSolver/ModelActiveSet as call traces | invariants of the trace; C74 assumes that the constraints in force are affine in the prescribed values (hypothesis `r_current_affine`) |
| C75 | ModelTrial | sums; the frozen balance as specification |
| C76, C77 | ModelLinear: sparsity, constrained assembly | list induction, linear algebra on dof functions |
| C78, C79 | ModelKrylov | block elimination, induction over Krylov calls |
| C80 | ModelRace: all interleavings of two workers | invariant over schedules |
| C81, C82 | ModelShear: constraint building of simple_shear | list induction over boundary faces |
| C83 | ModelTable | sums, loading facts from C52 |
| C84-C86 | ModelParams: parameter handler, declarations, parsing | one lemma per struct, the manual as an independent table |
| C87-C89 | ModelStep: ModelSolver's algorithms instantiated with the members they read and write; whole runs | invariants preserved by every subroutine, kept through the loops by induction; two-dof body for the refutations |
| C90, C91 | ModelSweep: the sweeps as lists of calls on history objects, each rank over its own cells; assembly with one constraints object per rank | calls on one object extracted from the sweep; repeated stores, resets and updates from the other side are idempotent; sums over a permutation; one-face and shared-dof bodies for the refutations |
| C92 | ModelBody: mesh, elements, crystals and loads of a step; histories by the sweeps of C90, residual by C70/C77, norms by C88; SpecBody.virtual_power | the sweeps forget iterates; the damage they write is in [0,1]; cell sums of C70; Cauchy-Schwarz on the free part of the virtual field; run by induction on the steps; two grains pulled apart as witness (ExampleBody) |
| C93 | ModelTangent: Newton matrix of a whole body, line-search objective with histories updated; SpecTangent: where the residual is differentiable | cell and face residual entries differentiated in a direction with the updated histories inside (C36, C65, C69 locally); sums over cells by the work forms of C77; two bars and an interface as witness (ExampleTangent) |
| C94 | ModelBody, ModelStep; SpecRun: accumulated hardening and largest opening of a list of solutions | each sweep at one point; one step = prepare, update with the accepted solution, finish; induction on the steps |
| C95 | ModelBody, ModelAssembly; SpecEnergy: stored energy, dissipation, works of loads, macroscopic strain and supports | elastic, defect, contact, opening and mismatch energies are convex and their derivatives are the assembled forces; secant stiffness and degradation decrease with opening and damage; sum over cells and both sides of faces; equilibrium C92 on the motion minus that of the supports; induction on the steps |
| C96 | ModelTangent.body_jacobian; SpecStiffness: sound histories, no softening, held in place, quadratic form | quadratic form of the assembled matrix = grains + pairs of interface sides + diagonal of constrained dofs (C77, C93); each part symmetric and non-negative (C24-C35, C29); elimination for existence; two slipping bars and an interface as witness, the same past its peak as counterexample |
| C97 | ModelProgram: run() of the application with ModelLoading, ModelShear and ModelStep inside; SpecProgram: boundary values, virtual motions, equilibrium of a run | trial solution obeys the constraints by an invariant of the three algorithms; loop unrolled into the steps of ModelStep.run and into the records of ModelLoading.run, then C50, C55, C82, C92, C94; a bar sheared in two steps as witness |
| C98 | ModelFiles: TableHandler from its documentation, the rows of Homogenization and SimpleShear, the files of a run; SpecFiles: columns, due steps | tables in closed form by induction over the accepted steps, composed with C97; refutations for interrupted runs and frequency 0; the bar of C97 as witness |
| C99 | residual, histories and solver of C92/C95/C97; SpecUnique: distance of two solutions, no latent hardening, exact equilibrium | each slip system, microstress and microtraction is monotone (C24-C28, C29), so is their sum; strictly for strains and slips; acceptance bounds the power (C92) and the supports agree (C97); a slipping point and the bar as witnesses, two systems with ratio 1.4 as counterexample (intermediate value theorem) |
| C100 | matrix, residual and objective of C93, pattern of C76, line search of C01-C04; SpecDescent: what a successful search is | slope -2 f of the objective (C93) gives a threshold below which Armijo holds; step lengths at least halve (C01), so some trial is below it; existence from C76 and C96; a pulled point as witness |
| C101 | the shear program of C97 on the bodies of C95; SpecMachine: driven dofs, motion and power of the machine | C95's inequality step by step; increments minus the motion of the driven edge are admissible (constraints of C82 at successive times), so the work of the supports is the reaction of the driven edge times its motion; a bar with machine work 3/2 and stored energy 1 as witness |
| C102 | the time step of ModelStep and the shear program of C97 on a body without slip systems; SpecElasticBody: elastic body, exact linear solver, sufficient limits | the residual of an elastic body is affine in the trial solution, its matrix the exact derivative (C93 numbering), the Newton update obeys the homogeneous version of the prescribed lines: after one update the residual vanishes; each algorithm is then followed turn by turn; C50 gives the plan of the run; the two-step bar of C97 as witness |
| C103 | the assembly of C92, the accepted step of ModelStep and the run of C97; SpecSupport: rigid motion, resultant, matching interfaces, obstructed part of a motion, force of an edge | stress, slip and interface powers vanish on rigid motions; face tractions of the two sides cancel (both_sides of C95, traction_neg/contact_neg); C92 gives the equilibrium on the passing part of the motion, linearity of the virtual power the support part; induction over the run of C97; a two-step rod under its own weight as witness |
| C104 | laws, histories, assembly (ModelBody, ModelTangent), time step and program of C97; SpecMirror: reversed body, state, constraints, program, solvers without preferred direction | ProofSimulation: a relation between two sets of subroutines kept by each of them is kept by the three algorithms; ProofMirror: oddness of the laws, evenness of tangents and hardening, reversed assembly; every operation of the step commutes with reversal, induction over the time loop; the rod of C103 with reversed weight as witness |
| C105 | the assembled systems of ModelBody/ModelTangent, the step of ModelStep and the program of ModelProgram; retimed bodies, loadings and programs in SpecTimescale | rates and their derivatives scale with the inverse factor (the five regularisations one by one), the loading/unloading decision only reads the sign of the rate, the extrapolation only the ratio of step sizes; hence equal subroutines, equal steps, and induction over the time loop |
| C106 | ModelObject: the solver object with its flags, loads and state, the user's functions as objects with clocks, every call as a step; the body seen by an evaluation (with_loads) | invariants over sequences of calls: loads equal the latest given, clocks of functions not used as tractions equal the time the user set; equilibrium from C92 with the histories of C107; refutations by a one-cell body |
| C107 | the same object; init runs the Initialise sweep of ModelSweep on the histories and resets the vectors | invariant over sequences of calls relating the flag to an accepted init and the histories to C92's `initialised`; face points keep what they had when already initialised; refutations by the two grains of C92 |
| C108 | The body, the time step and the run of the program (C92, C97, C102), restricted to elastic bodies; loads, supports and macroscopic strains combined linearly. | Virtual power is affine in displacements and loading: the power of the combined loading is the combination minus the work of the deviation (`power_deviation`); with C92 and C97 the deviation of accepted solutions has an elastic energy bounded by the tolerances; the boundary values of the run are linear in time (`control_value`: the displacement control is always monotonic, whatever the loading type). |
| C109 | The body (C92), its trial histories (C99) and its constraints; `SpecExistence.v` states when supports and macroscopic strain alone drive the body and what a history of exactly solved steps is. | The residual is the derivative of an incremental potential (`ProofPotential.v`: integrals of the scalar flow law, the defect energy, the interface energies). It is continuous and, under the hypotheses, coercive on the affine space of the constraints (`ProofBound.v`: coordinates bounded on level sets, growth of the flow law's integral), so it has a minimum (`ProofMinimum.v`: Bolzano–Weierstrass, dimension by dimension), which is a solution; uniqueness is C99; closeness combines it with C92; histories by induction. Without hardening and under a dead load of twice the saturated flow stress no solution exists (`ExampleExistence.v`). |
| C110 | The body, its steps and runs (C92, C94), two at a time; `SpecContraction.v` defines the energy of the difference of two states. | The dissipation inequality (C95's `body_balance`) applied to the difference of the two solutions in the body without loads: stresses, microstresses (quadratic defect energy) and microtractions are linear, so the difference of the virtual powers is that of the quiet body plus the power of the flow-stress differences on the slip-rate differences, which is non-negative because the flow laws are increasing (C25/C99). Runs by induction over the steps with the invariant that strengths agree. |
| C111 | The body and step of C109; `SpecLimit.v` says when loads are carried (a state at rest plus flow stresses below the resistances balances them, for every admissible motion), what a mechanism is and the most the slip systems dissipate in it. | `ProofSaturation.v`: each regularisation reaches every value below 1 (erf by the Gaussian integral identity), so the slip potential outgrows the work of every admissible flow stress. `PropLimit.v`: the stored energy lies above its tangent at the carrying state by a quarter of the elastic energy of the difference, so the incremental energy has bounded level sets and a minimiser; conversely a solution carries its own loads. `PropLimitRun.v`: an exact step keeps what decides whether loads can be carried (which systems harden and the resistances of the others), so histories exist step by step. Overload by testing with the mechanism. |
| C112 | The steps of C109/C111; `SpecLimitLoad.v` says when a step is solvable and when two steps are of the same solid up to loads, macroscopic strain, prescribed values and time step; `SpecLimit.v` when arbitrary stresses support the loads. | `ProofCoercive.v`: a convex function with bounded level sets grows linearly. `PropLimitLoad.v`: loads are supported exactly if the incremental energy under them grows linearly (stresses of incompatible strains are absorbed by the elastic energy); means and small changes keep growth, zero loads have it; other macroscopic strains only add incompatible strains. The limit is the least upper bound of the carried multiples. |
| C113 | The steps of C109/C111/C112; `SpecCollapse.v` says what an effortless motion, a free motion and a collapse are, in terms of the power of stresses, slips, resistances and loads only. | `ProofDirection.v`: a convex function with continuous slopes that exceeds its value at 0 somewhere along every ray has bounded level sets (compactness of directions, without choice). `PropCollapse.v`: stored stresses resist a motion more and more along it, or not at all; so a direction along which the incremental energy never grows is a collapse, and one that exists excludes every system of supporting stresses. The critical motion of a limit load is a collapse at the limit. |
| C114 | The step and body models under a bijection of the dofs: cells keep their order and shape functions, only the numbers of their dofs change. `SpecNumbering.v` says what it is to renumber vectors, lines of constraints, matrix entries, sets and states. | `ProofNumbering.v`: every assembled quantity reads the solution through the dofs of a cell and writes through them, so both renumberings cancel; sums over all dofs are invariant under bijections. `PropNumbering.v`: without copies the loop over the slip dofs computes a filter, whatever the order; `ProofSimulation.v` lifts the subroutines to the three algorithms (the comparison of active sets only needs equality to be preserved). |
| C115 | The step and body models with a vector added to every solution and the prescribed values moved along; `SpecRigid.v` says what a rigid motion and a translation is. | `ProofRigid.v`: residual, matrix and histories read the solution through strains, slips, slip gradients and openings, which a rigid motion leaves alone. `PropRigid.v`: combinations of old solutions with weights summing up to 1 move along, Newton updates stay. Between extrapolation and the first linear solve the displacement part of the update may differ, so `ProofSimulation.v` now has two relations: states, and states with the same update. |
| C116 | `ModelScratch.v`: assemble_local_residual executed statement by statement on the arrays of the scratch and copy objects (one memory per object), and WorkStream as a schedule of (object, cell); `SpecScratch.v`: the contribution of a cell is ModelAssembly's `residual_cell`, a function of the cell. | `ProofScratch.v`: loop invariants (which entries are written before they are read, for the slip systems and points in range); any memory gives the same local_rhs. Supply values: kept when there is no supply term, so the constructor's zeros are an invariant of every schedule; `C116_leftover` shows what happens without them. |
| C117 | `ModelScratchMatrix.v`: assemble_local_jacobian statement by statement on the same kind of memory, with the flag and the lists of the copy object (clear, emplace_back), and its WorkStream; `SpecScratchMatrix.v`: the contribution is ModelAssembly's `jacobian_bulk`, `jacobian_face_local` and `jacobian_face_coupling`. | `ProofScratchMatrix.v`: one lemma for nested loops that add to entries of both matrices, loop invariants as for C116, the lists by induction over the faces; `C117_body` ties the copy data to `cell_matrix_entry` and `cell_coupling_entry` of the body models. |
| C118 | No new code; `SpecVisit.v`: the body of `ModelBody.v` with its list of cells permuted, everything else the same, and two time steps that differ in the body only. | `PropVisit.v`: calls on an interface point from the two sides are the same function of the point (`same_call`, `same_call_rate`), so that a permuted list of them has the same effect; sums and conjunctions over the cells by permutation; the histories, norms and solves being equal as functions, so are the steps and runs. `C118_sides_must_agree` gives an order-dependent damage when the sides disagree on the energy. |
| C119 | No new code; `SpecNames.v`: the body of `ModelBody.v` with the cells called by other names, the histories kept under the new names (those of an interface under the smaller of the two new names first), everything else the same. | `PropNames.v`: the call sequence of a sweep is the renamed sequence (`sweep_named`), and calls on differently named points do not meet; entry by entry the assembled systems are read off the same cells and interfaces (`entry_named`, `matrix_entry_named`, `coupling_named`); `step_with` and `log_with` (`ProofNames.v`) carry a relation between histories through a time step, and steps make runs. `C119_example` exchanges the names of the two grains of C92. |

Properties that the code violates get a `..._refuted` theorem with a witness, and the provable part
as `..._partial`.

## 6. Findings: where the code does not do what a user would rely on

Each is a machine-checked `_refuted` theorem unless marked (text), which means seen while transcribing.

* C01 the cubic back-tracking step is NaN when two trials predict the same curvature.
* C05 micro line searches reset only the macro block: trials accumulate.
* C14/C15/C16 M1 damage can heal below the endurance limit; repeated evaluation changes it; the stored effective opening counts penetration.
* C19 orthogonality of input directions is checked with an absolute tolerance.
* C23/C85 the parser accepts elastic constants with indefinite energy, zero critical opening, zero durations, exchanged extrema, alpha >= 1/2 (full Newton steps can then never be accepted), zero reference length, mismatching initial slip resistances (release).
* C26/C36 the hardening part of the rate-dependent Jacobian is not the derivative; C69 with a latent ratio above one (default 1.4) the cell matrix is indefinite in some states.
* C27 defect energy index below 2 gives NaN at zero gradient.
* C30 a purely compressed interface gives 0/0 in the cohesive traction.
* C32/C33/C65 cohesive and contact Jacobians miss the characteristic displacement factor.
* C35 the derivative of the uncoupled degradation function is 1.
* C40 vectors can be set up before constraints; a repeated extractor set-up corrupts the layout.
* C44/C45 active set and periodic constraints conflict; inactive dofs miss latent hardening.
* C46/C47/C48 monolithic restarts are unbounded; bouncing with at most one loop never returns (the parser demands two); embracing determines the active set once.
* C49 a skipped extrapolation leaves the old solution as Newton update.
* C50 phases shorter than 5% of a step are dropped; (text) "Start time" is not used by the loading.
* C52/C53 DisplacementControl hard-codes monotonic loading; LoadControl is identically zero.
* C55 output frequency 0 divides by zero.
* C58 Integer logger columns are undefined for negative numbers.  C67 lines with more than dim fields are undefined behaviour in release builds.
* C61 the macroscopic damage accumulates into an uninitialised variable.  C63 fluctuation stresses are scaled twice.  C71 plane von Mises values use the 2D projector.
* C78 the reduced Schur system omits E G^-1 r_g.  C79 an absolute Krylov tolerance above the residual yields zero or stale updates.
* C76 relaxing Newton constraints after initialisation makes assembly throw.
* C80 two workers update the same interface history concurrently: a step's damage can be lost.
* C81 microhard conditions look up face dofs with the cell numbering: with the default degrees (2,1) in 3D displacement dofs are fixed.
* C83 shear column wrong for cyclic loading, stress column in 3D is width times mean.
* C84 "Store checkpoints" is declared but never read.
* C88 monolithic, rate-independent: after an active-set restart the accepted solution differs from the one whose residual was tested, and the history belongs to the latter.
* C89 "Reset trial solution at each micro loop" (default true) gives inactive dofs their extrapolated slip back after the active set reset it.
* C90 with the damage model M1 a process that owns both sides of a grain boundary adds the damage increment twice per update, one that owns one side once (1/2 against 1/4 in the witness): the damage depends on the number of processes.
* C91 the constraints of inactive dofs exist only on the owning process (active_set.cc:60-127, no `make_consistent_in_parallel`): the cells of other processes add to the residual and matrix rows of inactive dofs at partition boundaries, which therefore do not vanish as they do on one process.
* C91 with periodic constraints a yielding slave activates its master on the slave's process only; the master's process keeps it inactive.
* C96 once an interface point opens beyond the critical opening the monolithic matrix can be indefinite; the CG solver can still be selected for it. A point that was only compressed so far makes the matrix NaN (C30).
* C98 homogenization.txt is written only after the time loop: a run stopped by a failing solve leaves it empty although rows were computed; "Homogenization frequency" 0 passes the parser and divides by zero in the first step.
* C99 with latent hardening ratio above one (default 1.4) the discrete step can have several solutions: of two equivalent slip systems either may slip more. Which one is accepted depends on the initial guess.
* (text) plastic strain output lacks the dimensionless factor; Neumann traction is not multiplied by N3/N0; the cohesive and
  microtraction laws are constructed without the characteristic quantities the contact law gets; the time step of simple_shear's
  `simple_loading` is never parsed (constructor value 0.25); constructor defaults differ from declared ones; the infinite strip's
  parameter copy is written by every rank; vectorial law scaling is decided by N3 != 1.0; `was_updated` is uninitialised before the
  first prepare_for_update_call; the trial microstress has no grain-boundary term.
* The body force does not follow time (C106, `C106_body_force_follows_time_refuted`): assembly.cc:743-748 evaluates the supply term without set_time; only the Neumann functions get set_time(next_time) (1116). A time-dependent body force acts with whatever time its object happens to have; if the same object is also a Neumann function, the force even changes between the first and the second evaluation of the residual (`C106_shared_function_refuted`).
* A traction for a boundary id that does not exist is ignored (`C106_unknown_boundary`): the check is an Assert, absent in release builds.
* A step before init is not rejected (C107, `C107_uninitialised_step_is_rejected_refuted`): flag_init_was_called is set and never read.
* A second init keeps the damage (C107, `C107_second_init_starts_anew_refuted`): bulk histories are reset, InterfaceDataStorage::initialize and InterfaceQuadraturePointHistory::init leave existing interface points as they are.
* C109: the regularised flow laws saturate (atan, sqrt, Gudermann, tanh and erf are bounded), so for perfectly plastic slip systems a body force or traction above the saturated flow stress poses a time step without any solution (`C109_refuted_overloaded`); the Newton iteration can then only run into its limit, and nothing tells the user that the load, not the solver, is the reason. With hardening, or when only supports and the macroscopic strain drive the body, every step has exactly one solution. C111 turns this into an equivalence: a step is solvable exactly when its loads can be carried by stresses strictly below the resistances.
* C114 with periodic constraints on slips and rate-independent behaviour the constraints of an active master depend on whether the copying dof or the master has the smaller number (active_set.cc:69-119).
* C116: without a supply term the values of the supply are not rewritten in the scratch memory of a cell; the residual is right only because the constructor filled them with zeros (`C116_leftover`).
* C118: with the rate model, if the two sides of an interface find different free energies, the damage depends on which side is visited last (`C118_sides_must_agree`).

## 7. Print Assumptions of every theorem in MANIFEST.json

**Closed under the global context** (32 theorems)

C17_existing_data_is_kept, C17_initialised_faces_have_data, C17_lookup_before_initialise_poisons, C17_lookup_symmetric,
C17_no_aliasing, C39_blocks_separate_displacement_and_slips, C39_component_layout_is_a_bijection,
C39_elements_match_the_extractors, C39_global_components_are_crystal_independent, C39_owned_dofs_are_split_by_component,
C40_copies_start_without_vectors, C45_owner_is_found, C56_command_line, C56_otherwise_an_exception,
C57_true_iff_same_bytes, C62_components, C62_slip_names, C67_initialisation, C67_malformed_files_throw_partial,
C67_reads_exactly_the_file, C67_second_initialisation_throws, C68_crystal_count, C84_input_files,
C84_parameters_are_the_file_values, C84_unknown_or_out_of_range_rejected, C84_unselected_algorithm_keeps_defaults,
C85_accepted_iff, C85_accepted_parameters_are_admissible, C85_defaults_accepted, C85_release_gaps_refuted,
C86_copy_reproduces_the_run, C86_template_has_the_defaults

**ClassicalDedekindReals.sig_forall_dec** (17 theorems)

C05_macro_trial_is_stored_plus_step_partial, C118_sparsity_patterns, C40_calls_out_of_order_throw,
C40_initialized_iff_set_up_in_order, C40_no_vectors_before_dofs_partial, C40_repeated_set_up_corrupts_layout_refuted,
C40_vectors_before_constraints_refuted, C41_history_is_a_two_step_window, C58_accepted_iff_names_are_fresh,
C58_otherwise_an_exception, C67_too_many_fields_refuted, C73_constraint_lines, C73_hanging_nodes_kept,
C76_pattern_needs_matching_elements, C81_default_degrees_3d_refuted, C81_microhard_exactly_the_slip_dofs,
C81_other_dofs_untouched

**FunctionalExtensionality.functional_extensionality_dep** (1 theorems)

C84_only_values_in_force_matter

**ClassicalDedekindReals.sig_forall_dec, FunctionalExtensionality.functional_extensionality_dep** (109 theorems)

C05_first_trial_obeys_constraints, C05_trials_obey_constraints, C05_macro_iteration, C05_micro_iteration, C05_micro_trial_accumulates, C05_micro_trial_is_stored_plus_step_refuted,
C05_monolithic_iteration, C06_macaulay_is_positive_part, C06_signum_is_sign, C09_reset_restores_committed,
C09_reset_returns_to_last_commit, C09_store_commits_current, C09_uncommitted_calls_leave_no_trace,
C104_reversed_stresses, C106_unknown_boundary, C10_committed_resistance_never_falls,
C10_perfect_plasticity_never_changes, C10_resistance_never_below_committed_or_initial, C10_update_is_hardening_law,
C114_copies_order_matters_refuted, C114_linear_systems, C115_resistances, C115_translations,
C11_init_sets_initial_resistance, C11_no_use_before_init, C20_schmid_is_direction_times_normal, C20_schmid_symmetric,
C21_additive_split, C21_elastic_strain_linear, C21_elastic_strain_symmetric, C21_plastic_strain_value, C22_get_stress,
C22_get_stress_single_crystal, C22_reference_is_cubic, C22_stiffness_is_rotated_cubic, C22_stiffness_symmetries,
C22_stored_3d_stiffness, C22_stress_symmetric_and_linear, C24_power_identity, C24_resolved_is_projected_traction,
C28_bounded, C28_exchange, C28_intra_psd, C28_intra_symmetric, C28_no_assertion_fails, C28_normal_sign,
C28_same_grain_throws, C29_energy_independent_of_side, C29_energy_nonneg, C33_contact, C43_active_iff_yielding,
C43_rate_dependent_all_active, C43_sets_partition_the_slip_dofs, C43_sets_without_periodicity,
C43_trial_microstress_is_lumped_quotient, C44_active_master_is_constrained_refuted,
C44_constraint_is_decided_at_the_visit, C44_constraints_without_periodicity_partial, C44_inactive_values_are_reset,
C44_slave_loses_periodicity_refuted, C45_active_dofs_follow_the_hardening_law, C45_dof_and_quadrature_hardening_agree,
C45_inactive_dof_misses_latent_hardening_refuted, C45_perfect_plasticity_keeps, C45_updates_do_not_accumulate,
C49_exact_for_linear_fields, C49_extrapolation_formula, C49_initial_update, C49_nothing_beyond_the_data,
C49_skipped_update_is_zero_refuted, C50_comparable_steps_suffice, C50_plan_fills_the_configured_time,
C53_configured_load_refuted, C53_load_control_is_always_zero, C54_band_is_unique, C54_material_id_is_the_band,
C58_negative_integers_refuted, C58_rows_show_the_declared_columns, C60_fluctuations, C60_macroscopic_stress,
C61_macroscopic_damage_partial, C61_refuted, C62_slip_based, C64_history, C66_projection, C66_untouched,
C70_stress_includes_macroscopic_strain, C76_active_sets_stay_within_the_newton_constraints,
C76_assembly_stays_in_the_pattern, C76_closing_keeps_the_solutions, C76_jacobian_assembles_for_every_active_set,
C76_relaxed_constraints_refuted, C77_linear_system_is_the_constrained_newton_system,
C77_update_is_admissible_and_complete, C78_error_of_the_reduced_update, C78_reduced_update_completes_to_a_newton_step,
C78_unconverged_slips_refuted, C82_newton_constraints_are_the_homogeneous_version,
C82_newton_updates_keep_the_conditions, C82_prescribed_values, C83_stress_column_2d, C83_stress_column_3d_refuted,
C89_sets_change_only_on_request, C91_active_sets_do_not_depend_on_the_partition,
C91_inactive_dofs_of_other_ranks_refuted, C91_jacobian_does_not_depend_on_the_partition,
C91_periodic_active_sets_refuted, C91_residual_does_not_depend_on_the_partition, C91_system_with_active_sets_partial

**ClassicalDedekindReals.sig_forall_dec, ClassicalDedekindReals.sig_not_dec, FunctionalExtensionality.functional_extensionality_dep** (98 theorems)

C01_finite_step_refuted, C01_first_reduction_is_finite, C01_nan_iff_equal_curvature, C01_step_in_safeguard_interval,
C01_step_sequence_shape, C02_line_search_terminates, C03_accepted_step_satisfies_armijo, C03_residual_norm_decreases,
C04_first_reduction_minimises_parabola, C04_later_reduction_is_cubic_minimum, C16_stored_opening_is_law_opening_partial,
C16_stored_opening_is_law_opening_refuted, C18_rotation_angle_2d, C18_rotation_angles_3d, C18_rotation_exists,
C18_rotation_is_proper, C18_stiffness_rotation_3d, C18_stiffness_rotation_is_in_plane, C18_stiffness_rotation_is_proper,
C19_accepted_frame_error, C19_frame_is_the_rotated_input, C19_oblique_input_rejected, C19_orthogonal_input_accepted,
C19_rotated_binormal_is_normal_cross_direction, C19_rotated_frame_orthonormal, C19_tolerance_refuted,
C20_schmid_of_every_crystal, C21_slip_is_isochoric, C22_out_of_plane_extension, C22_stress_covariant,
C23_conditions_necessary, C23_elastic_energy_positive, C23_parser_accepts_unstable_refuted, C30_effective_opening,
C30_loading_follows_envelope, C30_unloading_is_secant, C30_zero_opening_zero_traction, C32_jacobian_symmetric,
C34_action_reaction, C42_debug_check_accepts_unit_factor, C42_sub_norms_are_the_norms_of_the_parts,
C42_sub_norms_split_the_norm, C46_divergence_is_reported, C46_iterations_respect_the_limit,
C46_restarts_are_unbounded_refuted, C46_return_means_converged, C46_terminates_if_the_active_set_is_stable,
C47_always_ends, C47_iterations_respect_the_limits, C47_one_loop_never_suffices, C47_return_means_converged,
C47_selected_algorithm, C48_active_set_is_frozen_after_the_first_iteration, C48_always_ends,
C48_both_residuals_converged, C48_iterations_respect_the_limits, C48_return_means_converged, C52_cyclic_load_refuted,
C52_cyclic_parameters_have_no_effect, C52_dead_cyclic_branch_jumps, C52_final_strain, C52_monotonic_load, C59_von_mises,
C62_dimensionless_output, C62_output, C63_fluctuations_partial, C63_refuted, C70_objective, C71_plane_von_mises_partial,
C71_plane_von_mises_refuted, C72_maximum_bounds, C72_running_maximum, C74_calling_rules_respected, C78_inexact_inverse,
C79_accepted_steps_descend, C79_failing_solver_aborts, C79_inexact_step_descends, C79_linear_residual_is_bounded,
C79_stagnation_below_the_absolute_tolerance, C79_stale_update_refuted, C80_both_sides_pass_the_same_values,
C80_every_schedule_partial, C82_applied_shear, C83_shear_column_cyclic_refuted, C83_shear_column_monotonic,
C85_large_alpha_excludes_full_steps, C87_hardening_of_accepted_slips, C87_only_accepted_solutions_leave_a_trace,
C88_accepted_solution_is_converged, C88_monolithic_rate_independent_partial, C88_monolithic_restart_refuted,
C89_inactive_dofs_do_not_slip, C89_reset_lets_inactive_dofs_slip_refuted, C97_accepted_solution_obeys_the_constraints,
C98_boundary_file, C98_completed_run_files_homog, C98_frequency_zero_refuted,
C98_interrupted_run_keeps_the_table_refuted

**ClassicalDedekindReals.sig_forall_dec, ClassicalDedekindReals.sig_not_dec, Classical_Prop.classic, FunctionalExtensionality.functional_extensionality_dep** (235 theorems)

C07_sigmoid_bounded_by_one, C07_sigmoid_has_sign_of_argument, C07_sigmoid_is_odd, C07_sigmoid_strictly_increasing,
C08_derivative_is_exact, C08_derivative_is_positive_with_common_slope, C100_line_search_succeeds,
C100_newton_is_never_stuck, C100_small_steps_descend, C101_machine_pays_for_all_energy, C102_elastic_step_is_accepted,
C102_elastic_test_completes, C102_elastic_test_completes_in_double_precision, C102_number_of_iterations,
C103_edges_balance_in_the_shear_test, C103_machine_acts_through_the_upper_edge, C103_rigid_motions_feel_the_loads_only,
C103_supports_balance_the_loads, C104_assembled_systems, C104_linear_solvers, C104_reversed_step, C104_reversed_test,
C105_assembled_systems, C105_linear_solvers, C105_rate_independent_test, C105_retimed_step, C105_retimed_test,
C106_body_force_follows_time_refuted, C106_equilibrium_with_the_loads_in_force, C106_evaluation_is_repeatable,
C106_shared_function_refuted, C106_step_under_the_loads_in_force, C107_first_initialisation, C107_initialised_histories,
C107_later_initialisations, C107_second_init_starts_anew_refuted, C107_uninitialised_step_is_rejected_refuted,
C107_uninitialised_steps, C108_accepted_solutions_superpose, C108_no_memory, C108_shear_test_is_proportional,
C108_superposition, C108_superposition_is_a_solution, C109_accepted_solution_is_close, C109_exactly_one_solution,
C109_refuted_overloaded, C109_whole_histories, C110_accepted_solutions, C110_disturbances_do_not_grow, C110_other_loads,
C110_runs, C110_same_stresses, C110_step, C110_whole_histories, C111_exactly_one_solution,
C111_flow_stresses_are_reached, C111_other_step, C111_overload, C111_solvable_iff_loads_carried, C111_whole_histories,
C112_any_equilibrium_stresses, C112_convex, C112_limit_load, C112_limit_load_of_histories, C112_margin, C112_no_loads,
C112_same_loads, C113_effortless_motions, C113_free_motions_strain_nothing, C113_limit_load, C113_load_factor,
C113_no_motion, C113_solvable_iff_no_collapse, C113_stronger_systems, C113_unsolvable_collapses, C114_assembled_systems,
C114_histories, C114_linear_solvers, C114_renumbered_run, C114_renumbered_step, C115_assembled_systems, C115_histories,
C115_linear_solvers, C115_moved_run, C115_moved_step, C116_body, C116_cell, C116_schedules_agree, C116_supply_values,
C116_work_stream, C117_body, C117_cell, C117_schedules_agree, C117_work_stream, C118_assembled_systems, C118_histories,
C118_linear_solvers, C118_run, C118_step, C119_assembled_systems, C119_histories,
C119_linear_solvers, C119_run, C119_step, C12_committed_damage_never_decreases, C12_exponential_damage_law,
C12_set_damage_is_uncommitted, C13_recorded_maximum_is_history_maximum, C14_driving_force,
C14_rate_damage_at_most_one_partial, C14_rate_damage_irreversible_partial, C14_rate_damage_irreversible_refuted,
C14_second_init_ignored, C14_update_is_rate_law, C15_exponential_update_repeatable, C15_rate_update_repeatable_partial,
C15_rate_update_repeatable_refuted, C25_bounded, C25_dissipative, C25_increasing, C25_odd,
C25_rate_independent_on_yield_surface, C26_jacobian_error_partial, C26_jacobian_exact_hardening_refuted,
C26_jacobian_exact_perfect, C26_jacobian_exact_rate_independent, C26_jacobian_psd, C26_jacobian_symmetric,
C27_energetic_length, C27_finite, C27_gradient_of_defect_energy, C27_in_slip_plane, C27_index_below_two_planar_refuted,
C27_jacobian_exact, C27_jacobian_symmetric_psd, C27_monotone, C29_gateaux_exact,
C29_traction_is_minus_energy_derivative, C30_compressed_interface_nan_refuted, C30_envelope_shape, C30_traction_bounded,
C31_potential, C31_range_and_growth, C32_jacobian_dimensionless_refuted, C32_jacobian_exact_undimensioned,
C32_jacobian_loading_partial, C32_jacobian_unloading_partial, C33_contact_jacobian_dimensionless_refuted,
C33_contact_jacobian_exact_undimensioned, C33_contact_jacobian_partial, C34_power_of_both_sides, C35_decreasing,
C35_derivative_coupled_partial, C35_derivative_uncoupled_refuted, C35_range_and_ends, C35_value,
C36_newton_exact_perfect_plasticity, C36_newton_exact_rate_independent, C36_newton_hardening_partial,
C36_newton_hardening_refuted, C37_bulk_symmetric, C37_coupling_transposed, C37_local_symmetric,
C38_unloaded_body_in_equilibrium, C38_virgin_cell_in_equilibrium, C50_double_precision_monotonic,
C50_run_follows_the_plan, C50_short_phases_are_dropped_refuted, C51_reversals_are_load_extrema,
C51_skip_exactly_at_load_reversals, C55_final_state_is_written, C55_frequency_zero_refuted, C55_interrupted_runs,
C55_monotonic_double_run_writes_the_end, C64_same_residual, C64_same_solutions, C65_dimensionless_refuted,
C65_displacement_rows_partial, C65_exact_undimensioned, C65_slip_rows_exact, C69_latent_ratio_above_one_refuted,
C69_newton_matrix_psd, C70_virtual_power, C70_virtual_power_cell, C70_virtual_power_of_finite_entries,
C75_activation_follows_the_shear, C75_right_hand_side_is_the_frozen_residual, C75_trial_is_a_mean_of_the_shear,
C75_uniform_shear_is_reproduced, C75_uniform_slip_gradient_is_cancelled, C80_race_loses_damage_refuted,
C80_rate_model_counts_both_visits_refuted, C80_sequential_visits_are_one_update,
C90_completes_on_every_partition_or_none, C90_every_sweep_counts_once, C90_histories_do_not_depend_on_the_partition,
C90_rate_model_depends_on_the_partition_refuted, C90_rate_model_partial, C92_accepted_solution_in_equilibrium,
C92_every_step_in_equilibrium, C92_initialised_after_setup, C93_line_search_knows_the_slope,
C93_matrix_is_the_derivative, C93_newton_step_cancels_the_residual, C93_short_steps_are_accepted,
C94_damage_follows_the_largest_opening, C94_nothing_heals, C94_resistances_accumulate_accepted_slips,
C95_dissipation_inequality, C95_energy_is_never_created, C95_isolated_body_loses_energy, C95_setup_is_sound,
C95_slip_dissipates, C95_step_keeps_soundness, C95_stored_energy_nonneg, C96_matrix_positive_definite,
C96_matrix_positive_semidefinite, C96_matrix_symmetric, C96_newton_step_exists_and_is_unique,
C96_softening_matrix_can_be_indefinite, C96_trial_histories, C97_accepted_solutions_are_sheared, C97_completed_run,
C97_completed_run_follows_the_plan, C97_damage_of_the_program, C97_every_accepted_solution_in_equilibrium,
C97_interrupted_run, C97_program_is_a_run_from_setup, C97_rate_dependent_run_in_equilibrium,
C97_run_is_a_sequence_of_steps, C98_files_of_the_shear_problem, C99_accepted_solutions_are_close,
C99_at_most_one_solution, C99_latent_hardening_refuted, C99_residual_is_monotone

