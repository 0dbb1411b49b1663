# Formal model of parallel-control-codes in Rocq (Coq 8.16.1)

## 1. Ground rules

* The model is a set of total Gallina functions written function by function after the Python source.
  Every definition cites file and lines in /repo.
* Python exceptions are values: `option` (`None` = the call raises).
* Loops are `fold`s or structural recursion. Python lists are lists, 2-d NumPy arrays are lists of
  lists (discrete problems) or mathcomp matrices (linear algebra).
* Numbers are exact. Floating-point rounding, NaN and overflow are NOT modelled. Every theorem is
  about the program run in exact arithmetic. Where the program uses a magic finite constant
  (1e20, 1e10) the constant is in the model.
* Three number systems are used.
  * Discrete costs (FSC, Viterbi): any totally ordered commutative monoid with monotone addition
    (record `ordcost`, Ord.v). Instances: `Z`, `Qc`, `R`, and `R` with +infinity.
  * Linear algebra (LQT, CLQT, SQP, HJB): any mathcomp `realFieldType`. Square roots are not needed:
    Cholesky is modelled by its pivots.
  * Logarithms and trigonometry (Viterbi in log domain, model Jacobians): Coq's `R`.
* `np.linalg.solve(A,B)` is `None` when A is singular, otherwise the unique solution.
  `cho_factor/cho_solve` and `solve(assume_a='pos')` read the upper triangle only and are `None`
  unless every pivot is positive (this is what LAPACK potrf does).
* `tfp.math.scan_associative` is an external library call. It is modelled after its published algorithm
  (TfScan.v: recursive halving, with the level limit `max_num_levels`, beyond which it raises), and the
  prefix-fold behaviour is proved. `tf.scan` is a fold. `tf.vectorized_map` is `map`.
* Random draws are arbitrary input sequences.

## 2. Layout of /verif/rocq/theories

| Files | Content |
|---|---|
| `ScanModel.v`, `ScanSpec.v`, `ScanProofs.v`, `ScanOrder.v`, `ScanUse.v`, `ScanRel.v`, `BracketSpec.v` | my_assoc_scan; any operator, any order of the iterations |
| `TfScan.v` | the associative scan of TensorFlow Probability |
| `Ord.v` | ordered cost structures, argmin/min of lists |
| `FscModel.v`, `FscSpec.v`, `FscCore.v`, `FscProofs*.v`; `FscTf*.v` | finite-state control, NumPy and TensorFlow |
| `Vit*.v` | Viterbi, NumPy and TensorFlow |
| `MxBase.v`, `LinComb.v` | matrices: solve, Cholesky, (semi)definiteness, normalisers |
| `Lqt*.v`, `LqtBatch*.v`, `LqtAsym.v`, `LqtTf*.v`, `LqtCtor*.v` | LQR, LQT, batch solution, TensorFlow, constructors |
| `Cond*.v` | condensing |
| `Nlqt*.v` | iterated nonlinear LQT |
| `Sqp*.v` | sequential quadratic programming |
| `Rk4*.v` | Runge-Kutta steps |
| `Clqt*.v` | continuous-time tracking, NumPy and TensorFlow |
| `Clqr*.v` | continuous-time regulator, all methods |
| `Parareal*.v` | parareal solvers |
| `Hjb*.v` | Hamilton-Jacobi-Bellman grid solvers |
| `Shoot*.v` | direct shooting, and the one-dimensional example models |
| `ModGrid*.v` | the grids of the example models, and the upwind pass on the upwind model |
| `Real*.v` | Coq's real numbers as a mathcomp field, the matrix exponential, exact discretisation |
| `ClqrOpt*.v` | the regulator's exact pass against the continuous-time optimal control problem |
| `RkConv*.v`, `RkQuadAlg.v`, `FwdConv*.v`, `FwdAlg.v`, `ClqrElem.v`, `ParAlg.v`, `ParConv*.v`, `ParTraj.v`, `FbAlg.v`, `FbConv*.v`, `FbTraj.v` | convergence of the Runge-Kutta passes over the reals |
| `Track*.v` | the tracker with constant data as the regulator of the extended state |
| `Tvar*.v` | the tracker with data that vary in time, over the reals |
| `OdeEx.v`, `OdeLin.v` | existence of solutions of linear differential equations and of the Riccati equation |
| `ModelsR*.v`, `LinMod*.v`, `Markov*.v` | example models |
| `*Spec.v` | independent specifications |
| `*Ex.v` | lemmas behind the non-vacuity examples |
| `Properties_*.v` | only the property theorems, closed by `exact`, with `Print Assumptions`, and their non-vacuity examples |

## 3. Properties: what is modelled and how it is proved

* C01, C02, C04 — `my_assoc_scan` modelled on a list of `option` with explicit index loops. Proof: loop
  invariants of the up and down sweeps (segment sums over aligned blocks of size 2^d), for an operator
  associative on a closed predicate. Reverse is derived from the forward case with the swapped operator.
* C03 — each level's loop is a fold of per-index updates; show that the updates touch disjoint cells and
  hence commute; any permutation of the index list gives the same list.
* C05, C06 — `seqBackwardPass` as a right fold; spec: cost of a control list by direct simulation, minimum
  over all lists of the right length. Proof: induction over the horizon.
* C07, C08 — matrices as list of lists with the sentinel; min-plus product associative; result of scan is
  a minimum over state paths; sentinel paths are never better under the bound. C08 is false: `_refuted`.
* C09 — composition of tables is associative; induction.
* C10, C11 — forward element (x0 element) gives the cost-to-come; sum with cost-to-go is minimal exactly on
  optimal states. C11 is false with ties: `_refuted` witness.
* C12, C13 — odometer = enumeration of base-m numerals; invariant "min over those seen". C13 false.
* C14 — shape check as a function of shapes; iff characterisation.
* C15–C19 — Viterbi over R (products) and -ln; reduction to the FSC theorems by generic ordered monoid.
* C20 — stage record, backward fold returning option; completion of squares by induction; PD by Cholesky lemma.
* C21, C22 — closed set of PSD pairs; I + C J invertible; associativity by uniqueness of solutions; scan theorem C04.
* C23, C24 — affine maps compose; scan theorem; T = 0 raises in the parallel pass (`_refuted` for C24).
* C25 — forward elements = cost-to-come; combination formula equals the trajectory point.
* C26 — block matrices; gradient zero at solution, PD Hessian.
* C27 — algebra. C28 — false: `_refuted`. C29 — option-valued expansion function. C30 — specialisation.
* C31 — doubling: powers of an element under the associative rule. C32, C33 — algebra; folds.
* C34 — condensing: induction on block length; cost identity by completing the square.
* C35, C36 — linearisation of affine models, Lagrange conditions with abstract Jacobian functions.
* C37–C40 — KKT algebra; BFGS by Cauchy–Schwarz in the B inner product; loop model with fuel = max_iter.
* C41–C47 — RK4 as a combinator on any vector space; block elements; affine equivariance.
* C48, C49 — generic parareal theorem on abstract fine/coarse propagators, then instantiated. C49 false: `_refuted`.
* C50–C54 — grid functions on lists over a realFieldType. C52 is expected to be false for interpolation: `_refuted`.
  C54 is false (sign test differs in TF): `_refuted`.
* C55–C61 — direct models with arbitrary draws; Coquelicot derivatives for C59.
* C62, C63 — TensorFlow LQT beyond the scan's limit and with a control reference: `_refuted`.
* C64–C66 — condensing with unpenalised states, SQP stopping rule and backtracking limit: `_refuted`.
* C67 — the scan as a bracketing of its inputs, for operators without laws.
* C68–C71 — further relations between the continuous-time passes and parareal solvers; C69 `_refuted`.
* C72, C73 — HJB: interpolation and reconstruction of controls.
* C74–C76 — discretisation, continuous reference curve, initial guesses.
* C77, C78 — TensorFlow finite-state control and the estimators built on it: equal to the NumPy passes.
* C79, C80 — the regulator's Runge-Kutta passes refine the tracker's on zero references; the affine parts are zero by
  a sign-flip symmetry of the block equations. C83, C84 `_refuted`.
* C81, C82 — method 'exact': one-parameter groups; the quotient D C^-1 solves the Riccati equation, and is symmetric
  because the group is symplectic.
* C85, C86 — the scan of Runge-Kutta steps equals a simulation with the control written out; the table by reshaping.
* C87 — states are affine and costs quadratic in the unknowns, so one Newton step of the solver is exact (C38).
* C88, C89 — `_refuted`: an iteration that jumps between two points for ever, and a singular first step.
* C90 — the pass in closed form (a kinked linear function of the state), which bounds every Euler trajectory and is attained.
* C91 — bounds of the drift on the grid, attained at a corner.
* C92 — over the reals, with the exponential series. The Hamiltonian system has an invertible upper block, because a kernel
  vector would cost nothing. Completing the square along any trajectory gives the gap to the optimal cost as an integral of a
  square (a monotone function, so no integral is needed).
* C93 — uniqueness of solutions of linear differential equations, applied to the block matrices inside the code.
* C94 — the step and the solution have the same Taylor polynomial of degree four (an algebraic identity in the bilinear map);
  the remainders are bounded on bounded sets; the error recursion is solved by induction. The Riccati equation is quadratic.
* C95 — every forward step agrees with an Euler step to second order, uniformly in the gain; the same error recursion.
* C96 — every cell of the scan's array stands for a run of entries; the up-sweep and down-sweep only join adjacent runs.
* C97 — the block element solves a quadratic equation whose exact solution comes from the blocks of exp(-tH); exact elements
  form a semigroup under the combination. Inverses depend on their argument in a locally Lipschitz way, so C96 carries an error
  bound through the scan. The Runge-Kutta error recursion then starts from a perturbed value in each block.
* C98 — the blocks of exp(-tH) also solve the forward equations, because H commutes with its exponential.  The forward
  elements, and the block elements integrated forwards, are therefore Runge-Kutta solutions of quadratic equations with known
  exact solution.  The optimal state is (1 + C(t) S(t))^-1 A(t) x0 and that inverse is bounded on the horizon, so solving the
  perturbed system costs a constant factor.  The scan is stable in all five parts of the elements.
* C99 — relational proofs: Runge-Kutta steps of related right-hand sides stay related, for the value functions
  (S, v) ~ ((S, -v), (-v', s)), for the closed loop x ~ (x, 1), for (b, C) ~ ((b, 1), (C, 0; 0, 0)) and for the block elements,
  whose transition matrix becomes ((A, b), (0, 1)).  The combination rule preserves the relation (block inverses), hence so does
  the scan, exceptions included.  Restriction: the parallel forward pass is compared without hold.
* C100 — a trajectory of the tracking problem extended by a one is a trajectory of the regulation problem of C99 with the same
  cost, and conversely the last component of a trajectory starting from (x0, 1) stays one, because its derivative vanishes. So
  C92, C94, C95, C97 and C98 for the extended problem give the statements about the tracker.
* C101 — along every trajectory the cost so far plus x' S x / 2 - v' x has the derivative sigma(t) + |u - (- K x + d)|^2_U / 2,
  where sigma does not depend on the trajectory (completion of the square with the right-hand side of the code). The difference
  of two trajectories is therefore monotone. For the combination, (1 + C S)^-1 (b + C v) is differentiated (the inverse is
  differentiable by the adjugate formula) and the right-hand sides of the code give the closed loop. Solutions of the equations
  are hypotheses; C103 proves that they exist for Lipschitz data and convex costs (for constant data existence is part of C100).
* C102 — a Runge-Kutta step differs from an Euler step by O(h^2) when the right-hand side is Lipschitz in state and time, and
  so does the solution (`TvarRk.v`), so the errors add up to O(1 / steps); the right-hand sides are polynomials in the state
  with Lipschitz coefficients (`TvarLip.v`), the symmetrisation does not increase the error, the gains of a step and the hold
  are an O(h) perturbation of the feedback, and the combination is Lipschitz near invertible I + C S.  The order is one
  because the data are only Lipschitz; existence of S, v, b, C is a hypothesis here and is proved in C103.
* C103 — removes the hypotheses of C101 and C102 that solutions exist.  `OdeEx` proves existence for right-hand sides that are
  Lipschitz in state and time: Euler's polygons satisfy the equation up to O(h), a discrete Gronwall inequality makes them a
  Cauchy sequence, and the limit satisfies it up to O(d^2) over times d apart.  `OdeLin` solves the Riccati equation through the
  linear Hamiltonian system; its first block is invertible because C' D only increases.  Both the backward equation (in
  reversed time) and the forward equation are of that form.  The optimal cost comes from the potential of C101 with the
  integral of sigma added, and two solutions are equal because both give the optimal cost.
* C104 — each block is a problem of its own with shifted data (`TvarParD.v`).  The exact element of a block solves the equations
  of bwpass_bw_ode_f (`TvarParB.v`: A from a linear equation, C as an integral, J and eta from the backward equations with zero
  terminal cost), and combining it with the exact value function at the end of the block gives the one at its start.  The
  computed elements are within O(1 / steps) of the exact ones (`TvarParC.v`), the combination is Lipschitz near exact elements,
  so the scan's results are within O(1 / steps) too (`TvarParA.v`), and the pass inside a block from a perturbed end value stays
  close (`TvarParC.v`).  The forward pass only needs gains that converge (`TvarParF.v`).  The elements integrated
  forward in time (bwpass_fw_ode_f, option forward=True) have C from a Riccati equation, and combining them with the value
  function at the moving end of the block is constant in time (`TvarParFw.v`).
* C105 — the exact element of a block maps the forward solution b, C at its start to that at its end (`TvarParG.v`, by uniqueness
  of solutions of the forward equations, for elements integrated in either direction), so the exact prefix combinations from the
  start state are b, C at the block boundaries (`TvarParH.v`).  The scan is stable near them, the pass inside a block from
  a perturbed start stays close, and the combination with the value functions is Lipschitz since 1 + C S is invertible on the
  whole horizon (`TvarParI.v`).  Agreement with the sequential passes follows since both are near the same solution (`TvarParJ.v`).

Not expressible here: floating-point accuracy, speed, GPU/TF graph execution, plots, and the
correctness of scipy's `expm`, `solve_discrete_are`, `minimize`.

## 4. Trusted base

Coq's kernel (and coqchk), the axioms printed under each property theorem, the reading of the source by
hand, and the modelling conventions of section 1. Section 5 gives the details.

## 5. Details

### 5.1 Axioms

`Print Assumptions` stands under every property theorem. Every axiom comes from Coq's standard library of
reals or its logic library. No theorem has an axiom of ours.

| File | Axioms |
|---|---|
| Scan, ScanSeg, Bracket, Fsc, Lqt, LqtTf, Ctor, Cond, Nlqt, Sqp, Rk4, Clqt, Clqr, Parareal, Hjb, Shoot, ModGrid, LinMod, Track | none (closed under the global context) |
| FscTf | C77: none. C78: the four axioms below |
| Vit | C15: `sig_forall_dec`, `functional_extensionality_dep`. C16–C19: all four |
| Markov | C57_state_index, C57_bits, C58_contexts, C58_conversion: none. C57_decoding, C58_decoding: all four. C57_structure: `sig_forall_dec`. The others: `sig_forall_dec`, `functional_extensionality_dep` |
| ClqrOpt, RkConv, FwdConv, ParConv, FbConv, TrackConv, Tvar, TvarConv, TvarExist, TvarPar, TvarFbPar | the four axioms below and `IndefiniteDescription.constructive_indefinite_description` |
| ModelsR | `sig_forall_dec`, `sig_not_dec`, `functional_extensionality_dep` or fewer |

The four axioms are `ClassicalDedekindReals.sig_forall_dec`, `ClassicalDedekindReals.sig_not_dec`,
`FunctionalExtensionality.functional_extensionality_dep` and `Classical_Prop.classic`. They come with Coq's `R`.
`constructive_indefinite_description` is used to make `R` a mathcomp type with choice. Coquelicot's lemmas on power series are
used in proofs; it has no axioms of its own.

### 5.2 What is modelled, and what each part leaves out

* **my_assoc_scan** — whole file. The worker pool is the order in which the iterations of one level run (C03).
* **fsc_np, viterbi_np** — whole files. Indices are naturals, so Python's negative indices do not occur.
  The constants 1e20 and 1e10 are parameters or exact numbers.
* **fsc_tf, viterbi_tf** — all passes. `fsc_np_to_tf` (stacking) is the identity. Speed-test wrappers are left out.
  A horizon of zero is not modelled. With one measurement the parallel estimators pass a level count of zero
  to the library scan; this case is excluded.
* **lqt_np, lqt_tf** — all passes, constructors, batch solution, constant-problem doubling. `lqrDare` calls an
  external Riccati solver and is left out. Matrices have the declared shapes; C29 covers shapes separately.
* **condensing_np, condensing_tf** — whole files, any block length.
* **nlqt_np, nlqt_tf** — model functions are arbitrary functions; C36 assumes that Fx and Fu are their derivatives.
* **sqp_np, sqp_tf** — the norm is a parameter with the properties that are used. A singular system gives
  `None`, which stands for the inf/nan NumPy would carry. Derivatives returned by the user's functions, and by
  automatic differentiation, are assumed to be the true ones. The tensor version is modelled for one problem.
* **diffeq_np, diffeq_tf** — whole files, states in any vector space.
* **clqt_np, clqt_tf** — the tracker: packing, sequential and parallel passes, block elements, both forward
  modes. Broadcasting of one operand in `clqt_par_comb_fwdbwd` is left out. Coefficient functions are arbitrary
  functions of time that may raise. The regulator: all passes, methods 'rk4', 'exact' and unknown strings. `expm` is a
  parameter; C81 and C82 state what is assumed of it. Over the reals the exponential series meets the
  assumptions (C93), and C92 uses it.
* **parareal_clqt_np, parareal_clqt_tf** — all passes. Divisors (blocks, steps) are positive. The TensorFlow loops
  run at least one iteration.
* **hjb_grid_1d_np, hjb_grid_1d_tf** — combinations, passes, upwind scheme, interpolation, analytic solution.
  nan is `None` as an entry. `a = exp(block_dt)` is a parameter. Direct shooting: whole, on top of the SQP model;
  automatic differentiation is a parameter. Its batch axis is left out in the TensorFlow version.
* **cnonlin_models_np, cnonlin_models_tf** — the three models; grid sizes are parameters.
* **disc, linear_model, mass_model** — `expm` is a parameter. C60 and C74 assume that it is the exponential series
  on nilpotent matrices. `trunc_exp` (the truncated series) satisfies the assumption, so it is not vacuous.
* **nonlinear_model, finite_model, ge_model, text_model** — whole files. Random draws are arguments.
  `np.random.choice` is a search in the cumulative sums with an exact check that the sum is one. Characters are
  code points. A negative order of the text model is not modelled.
* **Not modelled** — `*_speedtest.py`, plotting, device placement, tracing by `tf.function`, rounding.

### 5.3 Refuted properties

A property that is false of the code keeps its id and statement. Its theorem has the suffix `_refuted` and gives
a witness, or shows that the property fails for every input of a class. MANIFEST.json lists it as partial, with
the part that does hold. They are C08, C11, C13, C24, C28, C44, C49, C52, C54, C62–C66, C69, C83, C84, C88 and C89. C53 is proved
except for monotonicity at the ends of the grid.

### 5.4 How the theorems were tested

`seeded/LOG.jsonl` lists edits of the model in a scratch copy, the claim each edit breaks and the theorems that
failed to build. An edit under which every theorem still built led to a stronger theorem, or was an edit that does
not change the function on the inputs the property covers; the entry says which.
