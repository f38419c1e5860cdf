# Formal model of USEPA/Water_Treatment_Models

The code (in `/repo`, Python) is read as text; nothing is executed.  The model
is written in Rocq (Coq 8.16.1) under `rocq/theories`.

## Layout

* `Lib_*.v`    – small mathematical library (finite sums, polynomials, lists).
* `M_*.v`      – the model: definitions only, each citing the file and lines it
  models.  No proofs.
* `S_*.v`      – specifications: definitions used by theorem statements which do
  not mention the model.
* `P_*.v`      – proofs.
* `Props_*.v`  – the property theorems only, each closed by `exact`, followed by
  `Print Assumptions`, and with an `Example` showing that its hypotheses are met.

## Modelling conventions

* Floating point numbers are modelled by Coq's real numbers `R`; rounding,
  overflow, NaN and signed zero are NOT modelled (idealisation, part of the
  trusted base).  Where NaN is used by the code as a "missing" marker it is
  modelled by `option`.
* numpy arrays with fixed shape are functions from indices to `R` together with
  their dimensions; flattening (`reshape`) is modelled with explicit index
  arithmetic where it matters (Jacobian sparsity).
* pandas frames are association lists or records keyed by strings.
* Python exceptions, `sys.exit`, KeyError, UnboundLocalError are explicit error
  values.
* scipy's `solve_ivp` is not part of the repository.  Statements about simulations are
  statements about the right-hand side (`diffun`) for all states, about every
  exact trajectory of it, about every state that an integrator can compute from it in exact
  arithmetic (C148, C149), or are quantified over an arbitrary solver function.  `S_Solver.v`
  describes what integrators compute; it was written from knowledge of the library, whose
  source is not available here, and is trusted.  Its Jacobian columns are difference
  quotients of whole rates; scipy assembles them in groups given by the sparsity pattern, which is
  the same since the pattern covers every dependency (C21, C22).
  Root finders, `curve_fit`, `quad`, orthogonal-polynomial roots
  (`roots_sh_legendre`, `roots_sh_jacobi`) are parameters with the hypotheses
  stated in the theorem (for example: the roots are distinct).
* File I/O, plotting, printing and multiprocessing are not modelled, except that
  a pool is a map over the jobs.

## Plan per property
| id | what is modelled | how it is proved |
|----|------------------|------------------|
| C01 | `conv_units` and the unit tables | algebra on table entries, all non-zero |
| C02 | the same, against a separate table of SI definitions | case analysis over the finite tables + interval arithmetic |
| C03 | `conv_units` with the stream of typed answers | induction over the answers |
| C04 | the compound converters with `split('/')` | reduction to C01 |
| C05 | `conv_params_data` on association lists | induction over rows |
| C06 | velocity branch of `conv_params_data` | evaluation + algebra |
| C07 | `Q_calc` and the Q to Qf step of `load_data` | case analysis |
| C08 | `conv_database` in `load_data` and `save_results` | induction over ions, C01 |
| C09 | the alkalinity branch of `load_data` | algebra on real powers |
| C10 | order of `self.valences` versus `self.names` | counterexample (refuted) + positive case |
| C11 | copy of kL/Ds/Dp before unit conversion | counterexample (refuted) + positive case |
| C12 | `calc_Ceq_mv` | algebra over finite sums |
| C13 | `calc_Ceq_dv` | quadratic formula over finite sums |
| C14 | `diffun` HSDMIX/PSDMIX | finite sums; mean-value theorem for trajectories |
| C15 | `diffun` | finite sums |
| C16 | `diffun` | algebra on the surface row |
| C17 | batch `diffun` | algebra + mean-value theorem |
| C18 | `diffun` + collocation rows summing to zero | C23-C26 |
| C19 | initialisation code | case analysis on indices |
| C20 | `interp1d` linear + `get_Cin` | induction over the table |
| C21 | `approx_Jac_struc` on flattened indices + `diffun` | index arithmetic (mod) |
| C22 | `spar_Jac` + GAC `diffun` | index arithmetic |
| C23 | `recur`, `calc_px_column`, `recur_colloc` | Lagrange basis, root counting of polynomials |
| C24 | `recur_colloc_symm` | C23 + chain rule |
| C25 | quadrature weights | sums of positive terms |
| C26 | `advect_operator` | block index arithmetic + C23 |
| C27 | band update loop | induction over cases |
| C28 | perturbation loop over a column record | per-key evaluation; refuted for some keys |
| C29 | object identity of `self` in `model_uncertainty` | record comparison |
| C30 | `save_results` index | algebra |
| C31 | `conv_iex_u` against `conv_conc` | refuted in general, proved for the units where it holds |
| C32 | unit ladders of `process_input_file` | case analysis |
| C33 | derived column values | algebra |
| C34 | fouling tables and multiplier | monotonicity of exp and lines; intercept refuted for some |
| C35 | `tortuosity` | piecewise monotonicity; agreement refuted |
| C36 | `recalc_k` | real powers |
| C37 | GAC `diffun` | finite sums |
| C38 | `find_minimum_df` | minimum over lists |
| C39 | `generate_grid` | algebra |
| C40 | search loop of `run_all_smart` | invariant over iterations |
| C41 | `run_all`, `run_all_smart` over backups | counterexample for `run_all`; invariant for the smart version |
| C42 | backup/reset record | invariant over run sequences |
| C43 | band update + perturbations | as C27, C28 |
| C44 | override rule | case analysis |
| C45 | correlations | positivity of powers |
| C46 | rotation search | induction over the search loop |
| C47 | daily scan | induction; refuted hazard index |
| C48 | EBCT rescaling | algebra; refuted for longer EBCT |
| C49 | wave velocities | telescoping sums |
| C50 | isotherm conversion | real powers |
| C51 | RSSCT formulae | algebra |
| C52 | unit handling | counterexample + positive case |
| C53 | lead-lag loop | induction over loops |
| C54 | dispatch on names | case analysis; refuted for one name |
| C55 | PAC `diffun` | algebra + mean-value theorem |
| C56 | PAC state record | counterexample + positive part |
| C57 | geometry branch | case analysis |
| C58 | unit arrays | algebra |
| C59 | `solve`/`diffun` of both column models with the time scale as a parameter | change of variable along trajectories |
| C60 | batch branch of `conv_params_data` | evaluation + algebra |
| C61 | bulk rows of `diffun` + radial operator | polynomials: exact derivatives (C23, C24) |
| C62 | liquid row of `diffun` + advection operator | polynomials: exact derivatives (C26) |
| C63 | batch `diffun`, both equilibria | finite sums; mean-value theorem |
| C64 | batch `diffun` | algebra on the exchange flux |
| C65 | `model_uncertainty` of both packages | error monad; counterexample + positive case |
| C66 | unit ladders of `process_input_file` | counterexample + positive case |
| C67 | `viscosity`, `density`, diffusion correlations | monotonicity; interval arithmetic; refuted at the ends |
| C68 | `calc_solver_matrix` | Lagrange basis, inverse matrix as parameter |
| C69-C73 | `run_psdm` right-hand side, report | finite sums, algebra, mean-value theorem |
| C74 | `run_all_smart` search loop | invariant over iterations |
| C75 | `run_all`, `run_all_MP` | minimum over the grid |
| C76 | `run_psdm_dsfit` | minimum over trials |
| C77 | `calculate_replacement_interval` | induction over the daily scan |
| C78 | `plot_ecm` | case analysis on indices |
| C79 | unit tables of `PSDM_extra` | separate table of true sizes |
| C80-C83 | two vessels in series, each a parameter | induction over loops; counterexamples |
| C84-C86, C90 | PAC set-up and right-hand side | algebra; counterexamples |
| C87 | contact-time search | sorting + interpolation lemmas |
| C88 | PAC reference curves | derivatives of closed forms |
| C89 | PAC unit tables | separate table of true sizes |
| C91-C93 | pivot, filling and time-zero row of `process_input_file` | lists of records, interpolation lemmas; counterexamples |
| C94-C99 | `__calculate_capacity` | real powers, mean-value theorem, search over days; counterexamples |
| C100-C104 | `run_PSDM` and `run_PSDM_fitter` of the web application | lists, whole-number grids, broken lines; solvers as parameters; counterexamples |
| C105-C109 | `isotherm_fit` | least squares of exact data, Rolle's theorem for sums of exponentials; counterexamples |
| C110-C112 | `fit_ecm` and `fit_ecm2` of the equilibrium column model | sums of squares, folds over the optimiser's trials; counterexamples |
| C113-C116 | `process_raw_data`, `process_raw_data_new`, `filter_compounds`, `calc_Jac` | lists of records, finite differences, C22; counterexamples |
| C117-C118 | state effects of `predict_full_scale`, `predict_full_scale_ds`, `analyze_all`, `analyze_all_ds` | object as a record, fits as parameters; counterexamples |
| C119-C121 | batch `load_data` and `save_results`, `runner.py` | prompts as an input list, reuse of C08 and C30; counterexample |
| C122-C124 | `HSDMIX_solve` and `PSDMIX_solve` of the ion-exchange web application (R) | same definitions as the Python column with R's recycling rules; trajectories; counterexamples |
| C125-C133 | unit tables, `model_prep`, conversions, calculators, axes, plots and saving of the ion-exchange web application (R) | tables as lists of columns, units specified from their definitions; counterexamples |
| C134-C142 | unit tables, `column_data`, input check, axes, relative concentrations, plots, saving and fitting of the granular-carbon web application (R) | tables as columns, long tables as point lists, units from their definitions; counterexamples |
| C143-C147 | unit tables, C/C0, dosage study, workbook values of the powdered-carbon web application (R) | R recycling and `seq` modelled as list functions; reuse of the model of `PAC.py`; counterexamples |
| C148-C149 | what a step-by-step integrator can return, scipy's BDF and explicit Runge-Kutta methods (S_Solver.v), applied to the right-hand sides of columns, batches, powdered carbon and the web application | mutual induction over computed states and increments; linear invariants; uniqueness of the Newton correction at an equilibrium |
| C150 | treatment of the integrator's answer (`solve`, `run_psdm`, `run_PAC_PSDM`) | list reasoning on the points, interpolation within a segment; counterexample for the prolongation |
| C151 | the copies of `run_psdm` and `run_all` under `Shiny-GAC`, as their departures from the package | equality of the equations in clean water; algebra on the two right-hand sides and exactness of the radial operators otherwise; for the fit, induction over grid and rounds, ties of the table of errors (C38); counterexamples |
| C152 | `ds_corr` and the scaling after it | algebra in umol per litre of carbon; counterexample in fouled water |
| C153 | scipy's grouped difference Jacobian (S_Sparse.v) on the patterns of `approx_Jac_struc` and `spar_Jac` | soundness of the patterns (C21, C22) lifted to shifts of whole groups |
| C154 | right-hand sides and starts of columns, batches and granular carbon under a permutation of the per-species inputs | sums over a permuted list; the permuted trajectory solves the permuted equations |
| C155 | the same with one species of zero concentration appended | sums with a zero term; the quadratic without divalent ions reduces to the monovalent law; counterexamples for batches and granular carbon |
| C156 | `calc_mesh_diameter` | the series of openings as fourth roots of powers of two, bounded case by case; counterexample for unknown numbers |
| C157 | the boxes for the contactor in `PACapp.R`, the sheets handed over, `PAC_CFPSDM.__init__` | evaluation of the constructor for arbitrary entries and every offered unit; equality of runs |
| C158 | `diffun` of the four models | the rate is locally Lipschitz in the state and continuous in time at every point of the run (closed under the operations the code uses); Gronwall on the squared distance, continued to the end of the run |
| C159 | `u_init`, `initial_state`, the internal time unit | rescaling of time, then uniqueness (C158) |
| C160 | `process_files`, both `read_in_files`, the directory temp_file as a map from names to tables | induction over the history of uploads: every file follows the last workbook with its sheet; counterexample for every history whose last workbook lacks a sheet |
| C161 | the same with sessions that read the directory when they open | induction over the events of other sessions; counterexample |
| C162 | the observers that fill the boxes from the parameter sheet, then `model_prep` (C126) | field by field; rounding to four digits bounded by logarithms; counterexample |
| C163 | `paramdf`, the observer that settles the velocity, the upload, `model_prep` | the saved sheet has a text column, so that nothing is rounded; equality of the two calls field by field |
| C164 | the run button: the check, `out`, the table of results and its conversion, as a state machine | induction over the actions after the last success; counterexamples |
| C165 | `LLobj.__init__` with its error flag, `run_LL`'s refusal | case analysis over arguments and sheets; counterexample family |
| C166 | the workbook branch of `LLobj.__init__`, `io_data` | equality of the sheets handed over; refutation for every call by arguments |
| C167 | `add_resin_selectivity`, the loop over the selectivities, the caller's rows as shared cells | induction over the table of selectivities; counterexample families |
| C168 | `diffun` of the four models, `initial_state`, `batch_initial` | Picard iteration where the rates are locally Lipschitz (the calculus of C158), gluing of runs, a cluster point of a run of bounded growth; linear growth of the rates with Gronwall; for one compound on carbon the sum of absolute amounts grows at most exponentially, because film and pore exchange cannot raise it (P_L1Grow); real induction for the batch, whose rates are partial |
| C169 | `find_qn`, `finiteSphere`, the distribution coefficient and the Crank curve of `get_analytical_sol2`; the root finder is a parameter with a contract | location and uniqueness of the roots in each period; the profile in the spheres written out and differentiated; Bessel's inequality for the sum at time zero, from orthogonality; conservation (C55) for the level |
| C170 | `find_pn`, `finiteHSDM` and the film curve of `get_analytical_sol2`; the root finder is a parameter with a contract | location and uniqueness of the roots in each period for Biot numbers above one, by monotonicity of the two sides; intermediate values on both sides of the pole for a missed root; the profile in the spheres written out and differentiated; Bessel's inequality from the orthogonality of the profiles together with the bath |
| C171 | Rates of the column, batch, powdered-carbon and granular-carbon models of similar equipment (S_Similar) | Rates of the second are those of the first divided by r; change of variable in the trajectory; the small-column design of C51 gives similar columns |
| C172 | The same models with concentrations and capacity multiplied | Homogeneity of the two equilibria, then of the rates; the carbon column's dimensionless numbers are unchanged unless a compound is absent at the start |
| C173 | The column and batch models on two ion sheets, one listing ions in several rows (S_Split) | Sums over rows as sums over ions; the equilibria and rates commute with totals; interpolation of summed influents |
| C174 | The unit converters and the dialogue with the user | The unit found by the dialogue is in the table; compound units are split and put together again; gallons enumerated |
| C175 | The studies of a powdered-carbon object as updates of that object (S_Doses) | Every study keeps compounds and unit factors; a run reads only those, the dose and the duration; induction on doses, concentrations and earlier studies |
| C176 | M_LeadLag.run_LL_gac_ix | inversion of the run; refuted for every run that ends, positive part for counterions |
| C177 | M_GacFit (rounds, refine, round_grid) | invariant of the search interval over the rounds, floor/ceil bounds in the last one; refutation by a concrete staged fit |
| C178 | Right-hand side of the contactor equations (M_Pac.diffun), run and page | Exact: pore liquid as the unique Freundlich solution; inside the grain by exactness of the collocation operators on polynomials; film balance; reporting by unfolding |
| C179 | M_Pac.create and derive | Field identities between the table's entries and amounts per litre of suspension; inequality for the Biot number |
| C180 | Conversion and gathering of both sheets, the two observers as sequences of assignments that an error ends, layers of the plots (M_RIexPlots) | Membership in the points iff membership in the sheet, by the conversion lemmas of C127; refutations by the interrupted observer, the one-row branch and swapped columns |
| C181 | The page as a state: boxes, sheets, influents, results, table of c/c0; edits and the run button as transitions; what is drawn and saved read off the state (M_RGacSession) | Induction on the actions after a successful run; membership in the drawn points iff membership in its results; refutations by one edit after a run |
| C182 | The loading of M_IxData followed by the reading of solve (read_column and prepare in M_IxUnc) | Inversion of the reading, row by row; the error case by going through the reads in order; existence by supplying each lookup |
| C183 | kf_calc with gnielinski and ohashi (M_GacFun); the specification lists the Sherwood numbers with roots and exponentials of the library | Case by case, from powers as in Python to roots; a factor larger than 1 for Ko's |
| C184 | The search for a breakthrough time of M_GacCapacity, its fits as parameters | What each verdict says of the time, branch by branch; the logistic equation solved for 99 %; which readings are regressed by counting the ones with effluent; the two lines compared by their slopes |
| C185 | The exact solution of the column (M_IxColumn) with the collocation operators (M_Colloc) | The first column of the derivative matrix alternates in sign, from the products of differences of roots; the rate of a point in a fresh bed is minus that entry times the influent; continuity of the rate gives the sign for some time |
| C186 | The session of the powdered-carbon page (M_RPacSession): inputs, wishes and results after any sequence of edits and button presses | Induction over the session; the tables by C143, C144 and C175 |
| C187 | `recur_colloc_symm` (M_Colloc) at the zeros of the shifted Jacobi polynomial | Integrals of polynomials as a linear functional (Lib_Moment); Gauss-Radau quadrature: the weights integrate the Lagrange polynomials, orthogonality raises the degree; integration by parts gives the flux and the sign. Existence of the points: Gram-Schmidt, zeros simple and inside by orthogonality; uniqueness: the difference of two such monic polynomials is orthogonal to itself |
| C188 | `diffun` and `run` of the powdered carbon (M_Pac) on that grid | A free energy of liquid and bead that never grows (C187_dissipation, monotone isotherm) bounds the loadings from below and the liquid from above; the liquid loses at most what the film carries; boundedness and C168 make runs last |
| C189 | `diffun` of the powdered carbon on the grid of C187, over endless time | The endless run is glued from C188_lasts by uniqueness (C158); the free energy of C188 drains at least as fast as the squares of film gap and radial slopes (C187), so these vanish (Barbalat's lemma, Lib_Settle); the mass balance then fixes the limit. Equilibrium by the intermediate value theorem |
| C190 | Lines 756-770 of `get_analytical_sol2` (M_PacCrank) on a run of M_Pac | Limit by C189; a slow compound as counterexample by C188 |
| C191 | `diffun` of the granular carbon with the axial matrix of `calc_solver_matrix` (M_GacColumn), and its report | The axial matrix is the exact derivative (C68), whose first column alternates in sign (C185); the rates are continuous in time and state (C158), so the sign of the first rate is the sign of the first values |
| C192 | `diffun` of the ion-exchange columns and batch reactors and of the granular carbon at a state whose rates vanish | Kernels of the axial and radial collocation matrices: a profile they do not see is a polynomial with too many roots, hence constant (P_Rest); conservation laws then give the liquid; uniqueness of exchange equilibria under one linear law per ion (P_RestEq) and of ideal adsorbed solutions (P_RestGac) give the beads |
| C193 | The same right-hand sides along runs without end; influents that converge, read backwards from the end of time | The right-hand side is continuous at the limit (Lib_Tame, with the total charge of the limit found first from the linear balance of totals), a converging quantity whose pace converges comes to a standstill (P_Settle), so the limit is a state of rest and C192 applies; conserved capacity and amounts select it |
| C194 | The right-hand sides of C192 | Equilibrium compositions depend on one number (the ratio of presaturant in liquid and resin; the spreading pressure of the adsorbed solution), found by the intermediate value theorem (P_Exhaust); equilibrium is stationary (C18, C64, C72) |
| C195 | The right-hand sides of both batch models with two ions | Two ions have a scalar isotherm, increasing and Lipschitz both ways (P_Binary); an energy built from primitives of isotherm and its inverse decays by the film and by diffusion (code_power), and Barbalat's lemma makes both vanish (P_Mono); the amounts fix the limit. With many monovalent ions on one or two points the sum of x ln x over phases is the energy: film and bead each lose at least the square of their driving force, ions present anywhere are present everywhere after any time, and one monotone equation fixes the limit (P_Entropy); with divalent ions each ion's share is divided by its valence, which makes the ratio of presaturant cancel in the balance (P_EntropyDv) |
| C196 | The equations of a contactor, of both ion-exchange columns and of a granular-carbon bed at the inlet, with the radial operators of the code | The last column of the radial operator is computed from the quadrature rule (exact to degree 2n-2) and Green's identity and alternates in sign (P_RadialSign); the surface loads linearly, the inside quadratically, so the surface decides (P_Inner); on two points the weighted sum of squared negative parts does not increase; a bead of a column on two points follows a cooperative system in the liquid of the influent (P_InletTwo) |
| C197 | M_GacFirst.cin (view or copy) and M_GacColumn.diffun | map identities; film rate at the clean inlet; refuted without copy-on-write |
| C198 | M_GacShare: a store of frames with addresses, construct, fit, grid_trial, and histories of them | Invariants over histories (a column has a table of its own or does not write); the last trial of the grid stays; refuted for the first fit with the optimizer on, forced days, and grid trials without copy-on-write |
| C199 | M_GacColumn.calc_solver_matrix against M_Colloc.recur_colloc_symm, recur_colloc and advect_operator | Both matrices are exact on polynomials of the squared radius, so they agree on unit vectors; the points agree by uniqueness of the Jacobi points (P_JacobiUnique) |
| C200 | M_IxBatch, mono- and divalent equilibria | On one or two points the equations of every ion are cooperative (P_Coop: no quantity drives another one down); real induction keeps the weighted sum of loadings above a margin fixed by the total; C168 then gives runs to the end; uniqueness (C158) glues them into one. With divalent ions presaturant and divalents fall at most exponentially, at a rate that does not depend on the run, which is the margin C168 asks for (P_BatchDv) |
| C201 | M_IxColumn on one or two radial points at the inlet, both equilibria | The exchange equilibrium is monotone in the sum norm (more of some ions on the resin at the same capacity gives more of them in the liquid, for mono- and divalent ions alike), diffusion between the two points is a contraction in a weighted sum norm; a differential inequality for sums of absolute values by real induction (P_L1). With real pore diffusion the sum norm need not fall; there the relative entropy of the bead to the equilibrium falls at a rate proportional to itself (P_EntropyIn) |
| C202 | M_IxColumn on one or two radial points at the inlet, two influents | The differential inequality of C201 with a forcing term: the rates of the two beads differ by the contraction of C201 and by the film coefficient times the difference of the waters and of their totals (P_Track); restarted at any time by shifting the run |
| C203 | M_IxColumn on one or two radial points at the inlet | The run and the same run one period later are two runs with two influents; C202 applied to them |
| C204 | M_GacColumn on two radial points at the inlet, one compound | Pore concentration is monotone in the loading (clipping included); the sum norm of the difference of two runs, weighted by the quadrature, falls but for the difference of the influents, and so does its positive part (P_L1). A run compared with itself later gives monotone filling and emptying; while a point stays short of equilibrium the amount in the grain rises at a fixed rate, which cannot go on |
## Trusted base

* Coq 8.16.1 kernel (checked again by `coqchk`).
* Axioms, all of the standard library.  `Print Assumptions`, run after every
  property theorem, lists a subset of these and nothing else:
  `ClassicalDedekindReals.sig_forall_dec`, `ClassicalDedekindReals.sig_not_dec`
  (the construction of the reals), `FunctionalExtensionality.functional_extensionality_dep`
  and `Classical_Prop.classic` (where the standard library's real analysis uses it).
  Theorems that involve no real number list none.
* The fidelity of the `M_*.v` files to the cited Python lines.
* Hypotheses on parameters (root finders, integrators, fits, simulations) are in
  the theorem statements, never global.

## What is modelled

* `M_Colloc.v`: Model of the collocation operators. Source: IonExchangeModel/ixpy/colloc.py (the GAC and PAC models have their own copies, see M_GacColumn.v and M_Pac.v). Arrays are functions of their indices; the orthogonal-polynomial root finders of scipy are parameters.
* `M_Ecm.v`: Model of the equilibrium column model, PSDM/psdm/ecm.py: 26-40 and 277-303 (input), 42-106 (run_ecm), 132-172 (isotherm and wave equations), 261-275 (plot_ecm). Arrays are functions of the index; the root finders are parameters whose answers are arbitrary unless a theorem says otherwise. Reading the workbook and printing are not modelled; the two fitting functions (174-259) are in M_EcmFit.
* `M_EcmFit.v`: Model of fitting the equilibrium column model: PSDM/psdm/ecm.py 174-215 (fit_ecm) and 217-259 (fit_ecm2). scipy's minimize is modelled by what it does to the object: it calls the objective at some trial points, in an order and number of its own, and returns one point. A trial point is the array of the K followed by the 1/n.
* `M_Extra.v`: Model of PSDM/psdm/PSDM_extra.py: sizes of large columns and of the rapid small-scale columns derived from them. A pandas NaN, or a cell never written, is [None]; Python's arithmetic hands NaN on. An argument is a plain number or a [value, unit] pair.
* `M_GacAnalyze.v`: Model of what whole-study tools do to a column object: PSDM/psdm/PSDM_tools.py 649-702 (analyze_all), 704-758 (analyze_all_ds) and the object's side of 161-318 (predict_full_scale) and 511-643 (predict_full_scale_ds); what the last two return is in M_Tools, the two differing only in the simulated curves. The fits of analyze_all run in other processes, on copies of the object. A fit is a parameter that may fail. k_data is a list of columns, each a list of rows; the chained assignments to it are taken to reach it. Drawing is left out but for the search of the minimum, [drawn], which may fail. The array under the index of data_df is taken to be writable, as it is before pandas 3.
* `M_GacCapacity.v`: Model of the capacity estimate of a granular-carbon column: PSDM/psdm/PSDM.py 408-728 (__calculate_capacity), 289-301 (its use) and PSDM_functions.py 1028-1030 (logistic). Times and concentrations of one compound are tables sorted by time, without missing values. scipy's quad, curve_fit and linregress and numpy's round are parameters; the last two fits may raise. Not modelled: artificial points (a keyword off by default), the breakday 2000 of the deprecated 'force' mode, and fits that give an infinite or undefined time, which are an error here.
* `M_GacColumn.v`: Model of the granular-carbon column: collocation matrices, the derived dimensionless numbers, the right-hand side handed to solve_ivp, the declared sparsity and the reported effluent. Source: PSDM/psdm/PSDM_functions.py (calc_solver_matrix, spar_Jac, interp) and PSDM/psdm/PSDM.py (run_psdm). Arrays are functions of their indices; root finders and numpy.linalg.inv are parameters. Not modelled: plotting, solve_ivp itself (its result is any trajectory of the right-hand side).
* `M_GacCopy.v`: Model of the web application's own copy of the granular-carbon package, Shiny-GAC/psdm/PSDM.py, where it departs from PSDM/psdm/PSDM.py. A line-by-line comparison of the two directories shows four departures: imports, the spelling of ptp and of copies ([* 1]); float() casts of values read from a workbook and the spelling of an assignment in PSDM_functions.py (101-153, 245, 249); two statements of run_all that the copy lacks (PSDM.py 891-892; below); and the divisor below.
* `M_GacData.v`: Model of loading influent and effluent measurements: the data part of PSDM/psdm/PSDM_functions.py 170-178 and 201-264 (process_input_file). A pandas NaN is [None]. A record without concentration, which pivot_table drops, is no record.
* `M_GacFirst.v`: Model of the influent table of run_psdm, PSDM/psdm/PSDM.py 1370-1377, down to whether pandas shares memory. [cow] is pandas' copy-on-write mode (always on from pandas 3, off by default before; the repository names no version). M_GacColumn.v's [cin_table] is the table with it (Props_First.v, [table_copied]).
* `M_GacFit.v`: Model of the grid fits: PSDM/psdm/PSDM.py 796-1012 (run_all), 2026-2153 (run_all_MP), 1659-1762 (run_psdm_kfit) and 57-66 (run_MP_helper), without plots and files. The simulation and its sum of squares are the parameter [sim] as in M_GacSmart. Assignments such as self.k_data[compound]['K'] = v are taken to change self.k_data, which is what the code intends and what pandas does without copy-on-write.
* `M_GacFun.v`: Granular-carbon correlations: fouling, tortuosity, Freundlich conversion, search grids, film transfer and water properties. PSDM/psdm/PSDM_functions.py, PSDM/psdm/PSDM.py, IonExchangeModel/ixpy/KL_guess.py. Numbers are reals; [x**y] is [rpow x y].
* `M_GacLegacy.v`: Model of helpers kept in PSDM/psdm/PSDM_functions.py for older scripts: 318-354 (process_raw_data), 356-453 (process_raw_data_new), 784-802 (filter_compounds) and 813-833 (calc_Jac). Measurements are those of M_GacData; a pandas NaN is [None].
* `M_GacMin.v`: Model of the best-fit lookup: PSDM/psdm/PSDM_functions.py 909-997, find_minimum_df. A table is a function of row and column; its labels are the index and columns of the frame. A non-frame argument (989-991) is not modelled.
* `M_GacShare.v`: Model of who owns the isotherm table of a granular-carbon column: PSDM/psdm/PSDM.py 290-318 and 352 (the constructor keeps the caller's frame, the backup is a copy), 781 (__reset_column_values puts a copy of the backup in its place), 1659-1762 (run_psdm_kfit) and 886-894 (the trials of run_all). Frames live in a store: a column holds the address of its k_data, and so does the caller. A write through an address is seen by everyone who holds it. A run is recorded with the isotherm it reads; its results are left out, and so are runs that raise.
* `M_GacSheet.v`: Model of reading a granular-carbon column sheet and of the derived column values. Sources: PSDM/psdm/PSDM_functions.py:39-42, 81-196 (column part of [process_input_file]) and PSDM/psdm/PSDM.py:141-223 ([PSDM.__init__]). The copies under Shiny-GAC/psdm contain the same code but for [float()] casts.
* `M_GacShiny.v`: Model of the bridge between the granular-carbon web application and the column model: Shiny-GAC/GAC_Shiny_helper.py 14-100 (run_PSDM) and 103-184 (run_PSDM_fitter), with the part of PSDM.__init__ (PSDM/psdm/PSDM.py 202-206, 285-300) that reads the tables by name. The application hands over text, so [float] (numpy.float64 of a text) is a parameter, as are the capacity estimate of one compound, the search for isotherm parameters and the simulation; each may raise. The flag [python] is False, as in the file. Frames have distinct row and column names. PSDM goes through the compounds in alphabetical order; here they come in the order of the table, which matters only to which of several failures is reported.
* `M_GacSmart.v`: Model of the stepwise isotherm fit: PSDM/psdm/PSDM.py 1015-1310, run_all_smart. One simulation, run_psdm_kfit (1659-1762) on a table that holds trial values for the compound, is the parameter [sim]: [Some e] its sum of squares, [None] an exception. It ends by restoring the isotherm table from its backup (1759, 781) unless it raises. Sums of squares that are nan are not modelled. The frame of results is indexed by position; the code addresses it by rounded label, which is the same thing as long as the labels of an axis differ.
* `M_GacState.v`: Model of what runs do to a granular-carbon column object: PSDM/psdm/PSDM.py 730-791 (__set_backups, __reset_column_values), 1320-1655 (run_psdm, its effects only), 1659-1762 (run_psdm_kfit), 1764-1824 (run_psdm_dsfit) and 1828-2009 (model_uncertainty). A run is the parameter [sim]: it may fail, and otherwise gives the effluent of each compound as a function of time. [used] is what it records as mass_transfer_data. The Jacobian pattern and the two array shapes follow from num_comps and are left out. Frames are lists of named columns, frame[c] = x is [update].
* `M_Isotherm.v`: Model of fitting an isotherm to batch data: PSDM/psdm/PSDM_tools.py 321-501 (isotherm_fit). scipy's curve_fit is a parameter that returns the parameters and the diagonal of their covariance, or raises; so is the quantile of Student's t. Drawing is not modelled, but what is drawn is: the title's numbers, the curve and the bands.
* `M_IxBatch.v`: Model of the ion-exchange batch reactors. Sources: IonExchangeModel/ixpy/hsdmixbatch.py:113-318 and psdmixbatch.py:112-332. The state is u[phase, ion]: phase 0 the liquid, 1..nr the radial points. [None] is a derivative with a NaN in it (division by zero in the equilibrium). The ODE solver is not modelled.
* `M_IxColumn.v`: Model of the ion-exchange columns HSDMIX and PSDMIX. Sources: IonExchangeModel/ixpy/hsdmix.py:280-573 and psdmix.py:74-389. The state is the array u[phase, ion, axial]: phase 0 is the liquid, phases 1..nr the radial points of the bead (nr is the surface). The ODE solver (scipy's solve_ivp) is not modelled: theorems speak of the right-hand side and of every exact trajectory. NaN checks (psdmix.py:342-344) are outside the real-number model.
* `M_IxData.v`: Model of loading and saving ion-exchange column data. Sources: IonExchangeModel/ixpy/paramsheets.py:311-331 ([conv_database]), IonExchangeModel/ixpy/hsdmix.py:94-213 ([load_data]) and 216-277 ([save_results]), IonExchangeModel/ixpy/converter.py:7-39 and PSDM/psdm/lead_lag_class.py:85-107 ([conv_iex_u]).
* `M_IxEq.v`: Model of the local ion-exchange equilibrium. Sources: IonExchangeModel/ixpy/hsdmix.py, psdmix.py, hsdmixbatch.py, psdmixbatch.py. A composition is a function of the ion index (row order of the ion sheet); ion 0 is the presaturant. Simplifications: valences are natural numbers; real division by zero is not a NaN (the theorems exclude it or the model makes it visible, see [Ceq_dv_batch]).
* `M_IxRun.v`: Model of saving the results of a batch reactor and of the command line: IonExchangeModel/ixpy/hsdmixbatch.py 49-110 (save_results; psdmixbatch.py has the same), runner.py 16-50 (parse_args, run_ixpy). Loading the batch is batch_C0 in M_IxData. Writing files is not modelled.
* `M_IxUnc.v`: Model of the ion-exchange uncertainty estimates. Sources: IonExchangeModel/ixpy/hsdmix.py:575-660 ([model_uncertainty]) and psdmix.py:391-479 ([model_uncertainty_PSDM]); what [solve] reads from the object: hsdmix.py:291-417, 488, 511, 537-542 and psdmix.py:85-214, 293, 322-323, 353-358. The integration itself is a parameter [integrate]: any function of the values that [solve] reads.
* `M_LeadLag.v`: Model of PSDM/psdm/lead_lag_class.py: two vessels in series, with carbon or resin. A vessel is a parameter: for its flow and the influent it answers with its effluent (PSDM.run_psdm_kfit with the given K and 1/n; HSDMIX.solve at the requested times). A time series is the list of its (time, value) pairs. Input frames have the same columns below influentID and effluentID, and every ion is a column of the influent. arange has the exact number of steps: floating-point rounding of the times is not modelled.
* `M_LeadLagInit.v`: Model of the constructor of LLobj and of its resin table, PSDM/psdm/lead_lag_class.py: __init__ (135-339), add_resin_selectivity (341-361), the check of run_LL (368-373) and io_data (56-83). An argument that must be a frame is [None] when it is not one. raw_data is a list of named groups of columns, influentID a text. Rows of the parameter sheet have different names.
* `M_Outcome.v`: What the programs make of the integrator's answer.
* `M_Pac.v`: Model of Shiny-PAC/PAC.py: powdered carbon in a contactor. The collocation operators (80-311) are the ones of ixpy/colloc.py, see M_Colloc. A pandas NaN is [None]. Solving the differential equations (885-890) is a parameter.
* `M_PacCrank.v`: Model of Shiny-PAC/PAC.py, get_analytical_sol2: Crank's reference curve. Finding a root between two bounds (scipy's brentq) is a parameter; the curves at one time.
* `M_PacHsdm.v`: Model of Shiny-PAC/PAC.py, get_analytical_sol2: the reference curve with a film and surface diffusion (HSDM). Finding a root between two bounds (scipy's brentq) is a parameter; the curves at one time.
* `M_Params.v`: Model of the parameter-sheet conversion of ixpy. Source: IonExchangeModel/ixpy/paramsheets.py, lines 14-48 (lower-casing) and 335-497 ([conv_params], [Q_calc], [dict_from_data], [conv_params_data]).
* `M_RGacApp.v`: Model of the granular-carbon web application, Shiny-GAC/GACapp.R: unit tables (21-104), the helpers 116-479, the page after a file is read (906-1061), the input check and the run (1101-1134), the fit (1141-1196), axes and plots (1198-1309) and the saved workbook (1323-1362). Frames are times with named columns. A unit that is in no table gives NA, an error here ([ValueError]). The texts and numbers of the input boxes are the fields of a record; the reactive graph is read off as plain functions. Numbers are saved and read exactly: the value column holds texts too, so that format(..., digits = 4) of 1039-1045 is applied to texts, which it leaves alone. Lengths and velocities use the tables of the ion-exchange application, which are the same (22-26, 42-49, 65-69).
* `M_RGacSession.v`: Model of the session of the granular-carbon page, Shiny-GAC/GACapp.R: the results kept by the run button (1098, 1124-1138), c/c0 (1209-1212), the points drawn (1227-1278) and the saved workbook (1323-1360). The property, isotherm and effluent sheets are of any type [A]; [solve] is run_PSDM on them, with the boxes and the influents: results, or an error. Results have more than one row (334, 350, 403), as those of run_PSDM do. The fit and its button are in M_RGacApp. A check that fails with an error (NA in a box) gives no results here either.
* `M_RIexApp.v`: Model of the rest of the ion-exchange web application, Shiny-IEX/Ion_Exchange_Model.R: unit tables (35-95), the helpers 854-1212, the alkalinity and film-transfer calculators (1992-2080), the time axes, plots and saved results (2102-2548). Frames are lists of named columns. Choosing a column that is not there stops with an error, [KeyError] here. A unit that is in no table gives NA, which spoils every later number; it is an error here too ([ValueError]). Texts and numbers of the input boxes are the fields of a record; the reactive graph is read off as plain functions.
* `M_RIexPlots.v`: Model of Shiny-IEX/Ion_Exchange_Model.R: the measured influents and effluents on the plots. A sheet is its first column, the times, and the other columns. Simplified: the single row of missing values that stands for no data is the empty list of points.
* `M_RIexSession.v`: Model of the session of the ion-exchange page, Shiny-IEX/Ion_Exchange_Model.R: the parameter sheet fills the boxes (1830-1961), a flow rate settles the velocity (1973-1983), the sheet that is saved (2519-2529), the check before a run and the results shown after it (2183-2258). Names in a parameter sheet are different. A number of a text column is the number it spells; the 15 digits that R writes and the decimals that the boxes keep (1397-1491) are not modelled. A row that is missing leaves its box.
* `M_RIexSolve.v`: Model of the solver of the ion-exchange web application. Source: Shiny-IEX/Ion_Exchange_Model.R 114-297 (rad_colloc, ax_colloc), 299-485 (HSDMIX_solve), 491-699 (PSDMIX_solve), written in R. Indices start at 0 here. The state is the array x[point, ion, depth]: points 0..nr-1 are the radial points of the bead, point nr the liquid. The column record of M_IxColumn holds the rows of params and ions (KxA is [Kxc]). The ODE solver and the root finders of orthogonal polynomials are parameters, as in the package's model.
* `M_RPacApp.v`: Model of the powdered-carbon web application, Shiny-PAC/PACapp.R: unit tables (17-109), what a workbook puts on the page (573-653), the contactor (309-356, 563-571), the run (669-707), the dosage study (709-769), axes (772-806) and the saved workbook (842-857). The results come from M_Pac: R_run_PAC, _run_multi_doseR and _R_HRT_calculator_for_dosage. NA is [None]. The unit tables of masses are those of the granular-carbon application.
* `M_RPacSession.v`: Model of the session of the powdered-carbon page, Shiny-PAC/PACapp.R: what the run button (669-707) and the button of the dosage study (709-769) leave behind, the tables and plots made of it (772-836) and the saved workbook (842-857). The inputs are the boxes, the sizes of the contactor and the compounds (M_RPacApp); [solve] is the integration of M_Pac. An error in either button is an error in an observer of Shiny, which ends the session. Compounds have names that R keeps (755-758).
* `M_RUpload.v`: Model of the uploads of the three web pages: process_files of Shiny-IEX/Ion_Exchange_Model.R (727-797), read_in_files of Shiny-GAC/GACapp.R (116-186) and of Shiny-PAC/PACapp.R (115-159), the calls when the application starts (1227, 480, 161), the upload of a page (Ion_Exchange_Model.R 1777-1808, GACapp.R 888-905, PACapp.R 521-535) and what a page reads when it opens. A workbook is a list of named sheets, a sheet a list of rows of texts with the names of the columns first; temp_file is a directory of such tables, one for the whole application, shared by its sessions. Reading a sheet that is there succeeds. Warnings of the reader, which keep an old effluent or file name, are not modelled. Files are written at once and one after the other.
* `M_Tools.v`: Model of the analysis tools: PSDM/psdm/PSDM_tools.py 51-159 (specific_throughput), 161-318 (predict_full_scale) and 761-858 (calculate_replacement_interval), without plots, files and printing. Simulations are parameters. Frames without missing values; the chained assignments of 800-830 are taken to reach the frame, as in pandas without copy-on-write.
* `M_Units.v`: Model of the unit conversions of ixpy. Source: IonExchangeModel/ixpy/paramsheets.py, lines 50-306. The user's terminal is the list of answers still to be typed; every converter takes it and returns what is left of it. Printed messages and the [label]/[caller] arguments, which only appear in messages, are dropped.

The copies of the PSDM package under `Shiny-GAC/psdm` differ from `PSDM/psdm` in
imports, `float()` casts, the spelling of `ptp`, a missing update of the isotherm table
in `run_all` and a scale factor of a diffusivity; the model follows `PSDM/psdm`, and the
last two are modelled in `M_GacCopy.v` (C151).

## What is not modelled

* The step control of `scipy.integrate.solve_ivp`, and floating-point arithmetic (see conventions).
* Reading and writing workbooks, plots, printed messages, process pools.
* `IonExchangeModel/ixpy/__main__.py`, which only calls the runner.
* Of the three web applications (R) the layout of pages, file dialogs and the reactive graph; the
  example scripts and the tests.
* `PSDM_functions.py`: the readers `process_column_data` and `process_input_data`, which only
  call pandas.

## Results

Status per property; `partial` with a `_refuted` theorem means that the statement is
false of the code, with the counterexample and the part that holds both proved.

| id | property | status | file | note |
|----|----------|--------|------|------|
| C01 | Simple unit conversions form a consistent system | proved | `Props_Units.v` | For every accepted pair/triple of units; concentration for every non-zero MW and valence. |
| C02 | Conversion factors agree with the physical definition of the units | partial | `Props_Units.v` | The full statement is false of the code for one unit: 'mg as N' uses 14.001 for nitrogen, more than 4e-4 off (C02_mgN_refuted). Every other accepted unit is proved within 2e-5, metric units, times and amounts of substance exactly; spellings proved identical. |
| C03 | An unknown unit never yields a conversion factor silently | proved | `Props_Units.v` | Every unit string and every finite sequence of typed answers; an exhausted terminal is EOFError. |
| C04 | Compound units convert as quotients of their parts | proved | `Props_Units.v` | Every compound unit a/b with accepted parts, plus gpm. The spelling of the input unit reported back may be rewritten by the code, the factor is not affected. |
| C05 | Parameters do not depend on the units they are written in | proved | `Props_Params.v` | conv_params_data on numeric rows with accepted units (after lower-casing), any order of rows, any subset of parameters; same outcome including failures. |
| C06 | Flow rate and diameter become a superficial velocity | proved | `Props_Params.v` | For every sheet that converts; velocity in cm/s is flow (cm3/s) over pi d^2/4 (cm2). |
| C07 | Resin capacity is independent of how it is specified | proved | `Props_Params.v` | Qm*RHOP, Qf/(1-EBED) and, through the loader, Q; an incomplete specification never yields a result (UnboundLocalError). |
| C08 | Saved concentrations are expressed back in the user's units | proved | `Props_IxData.v` | load_data then save_results for every ion table with accepted units, non-zero MW and valence; requested unit or own unit. The alkalinity case of loading is C09. |
| C09 | Alkalinity is speciated into bicarbonate conservatively | proved | `Props_IxData.v` | Fraction from the carbonate equilibrium with the code's two constants; the loaded column is the fraction times the alkalinity in meq; other columns untouched up to their own conversion. |
| C10 | Valences used by the solver are those of the ions it solves for | partial | `Props_IxData.v` | The full statement is false of the code when alkalinity is speciated: valences are captured before the row is moved (C10_valence_order_refuted). Proved when nothing is speciated and when the alkalinity row is last with valence 1. |
| C11 | Mass-transfer coefficients given in the parameter sheet are converted to solver units | partial | `Props_IxData.v` | The full statement is false of the code: the number is copied as written (C11_coefficients_as_written, C11_coefficients_converted_refuted). Proved when the sheet uses the solver's own unit. |
| C12 | Monovalent equilibrium obeys the separation-factor law and electroneutrality | proved | `Props_IxEq.v` | Sum, pairwise separation-factor law and uniqueness for every number of ions; calc_Ceq takes this branch exactly when no ion is divalent. |
| C13 | Mixed mono/divalent equilibrium obeys mass action and electroneutrality | partial | `Props_IxEq.v` | Proved whenever the presaturant is monovalent with positive loading (columns: any amount of divalents, including none; batch: some divalent loading). The full statement is false of the code for the batch classes when no divalent is on the resin (C13_batch_no_divalent_on_resin_refuted) and for a divalent presaturant (C13_divalent_presaturant_refuted). |
| C14 | The resin stays electrically neutral | proved | `Props_IxColumn.v` | Both column classes, every grid, every collocation matrices; trajectories are exact solutions of the model's ODE (the numerical integrator is not modelled). |
| C15 | Exchange does not change the total liquid concentration | proved | `Props_IxColumn.v` | Rate statement for any matrices; uniform-total and trajectory statements for the matrices the code builds. |
| C16 | Each bead gains exactly what crosses its surface | proved | `Props_IxColumn.v` | Both column classes; for the presaturant the flux is minus the sum of the others (C15). |
| C17 | Batch reactors conserve every ion | proved | `Props_IxBatch.v` | Both batch classes; trajectories in the exact-solution sense. Radial root finder assumed to return increasing points in (0,1). |
| C18 | A column at equilibrium with its influent stays there | proved | `Props_IxColumn.v`, `Props_Unique.v` | Both column classes, both advection operators, mono- and divalent equilibria with a monovalent presaturant. |
| C19 | A run starts from a presaturated, electroneutral bed | partial | `Props_IxBatch.v`, `Props_IxColumn.v` | Proved for runs without a distribution and for distributions with a non-zero entry; a supplied distribution of zeros is silently ignored (C19_zero_distribution_refuted). Batch starts: pure presaturant without divalents, full with a monovalent presaturant; with divalents the resin is seeded with Q/1000 of each (C19_batch_start_pure_refuted) and a divalent presaturant starts at 0.999 Q (C19_batch_start_total_refuted). |
| C20 | The influent seen by the model is the piecewise-linear curve through the data | proved | `Props_IxColumn.v` | scipy's interp1d is modelled; times inside the table, data points, outside the table (ValueError), hours/days. |
| C21 | The declared Jacobian sparsity of the ion-exchange column covers every real dependency | proved | `Props_IxColumn.v` | Both column classes, every grid size. |
| C22 | The declared Jacobian sparsity of the GAC column covers every real dependency | proved | `Props_GacColumn.v` | Every entry the declared matrix leaves zero is a true independence; solve_ivp uses it for BDF. |
| C23 | Axial collocation differentiates polynomials exactly | proved | `Props_Colloc.v` | First and second derivative matrices are exact on polynomials of degree < n for any distinct grid; root finder roots_sh_legendre is a parameter assumed to return increasing points inside (0,1). |
| C24 | Radial collocation applies the sheet/cylinder/sphere Laplacian exactly | proved | `Props_Colloc.v` | Gradient and a-dimensional Laplacian exact on even polynomials, any geometry; roots_sh_jacobi is a parameter assumed to return increasing points inside (0,1). |
| C25 | Radial quadrature weights are positive and integrate constants exactly | proved | `Props_Colloc.v` | Weights positive, a*sum(W*k)=k; sphere weights returned by build_collocation sum to 1/3. |
| C26 | Axial finite-element advection is consistent | proved | `Props_Colloc.v` | Grid shape, zero inlet row, exactness for piecewise polynomials with continuous slope, hence for polynomials and constants. |
| C27 | Ion-exchange uncertainty bands contain every simulated case | proved | `Props_IxUnc.v` | Every list of requests, every integrator that returns one value per ion and reporting time; the run lasts at least 12 hours (otherwise no reporting times are passed on). |
| C28 | Every requested uncertainty changes the quantity it names | partial | `Props_IxUnc.v` | Proved for capacity (given per filter volume), bed porosity, flow, bed length, influent and, when a CHLORIDE row exists, selectivity. The full statement is false of the code: kL, Ds and Dp requests change nothing the solver reads (C28_transport_has_no_effect_refuted), the bead porosity request changes the bed porosity (C28_bead_porosity_refuted), capacity given by resin mass and columns without chloride fail (C28_capacity_by_mass_refuted, C28_other_presaturant_refuted). |
| C29 | Estimating uncertainty leaves the user's column object as it was | partial | `Props_IxUnc.v` | Proved: unchanged for hours; the same influent (in seconds) for days. The full statement is false of the code for any other time unit: minutes are stretched as days (C29_minutes_refuted). |
| C30 | Reported times are the simulated times in the requested period | proved | `Props_IxData.v` | Every accepted period unit, and bed volumes. |
| C31 | Simulated effluents are reported in the units of the influent | partial | `Props_IxData.v` | The full statement is false of the code (C31_reported_units_refuted, C31_reported_meq_refuted). Proved for g (any valence) and mg/ug/ng with valence 1; lead-lag version for meq and mg/ug/ng with valence 1. |
| C32 | GAC input-file unit conversion is consistent | proved | `Props_GacSheet.v` | Tolerance 1e-6 (the code's lb/ft3 and gallon constants are rounded); an unknown unit is stored as zero, i.e. never converted (see C66). |
| C33 | Derived GAC column quantities are mutually consistent | proved | `Props_GacSheet.v`, `Props_GacState.v` | Positive geometry, flow and density. |
| C34 | Fouling never increases capacity with time | partial | `Props_GacFun.v` | Proved: never increases (all waters, classes, compounds, times); positive up to the tabulated horizon, which covers the run's duration; starts at 1 for eight classes. The full statement is false of the code: other classes and most PFAS start below (or above) 1 (C34_other_classes_start_refuted, C34_pfas_start_refuted) and extrapolation beyond the horizon can go negative (C34_positive_beyond_horizon_refuted). |
| C35 | Tortuosity is at least one and never decreases | partial | `Props_GacFun.v` | Proved: at least 1, initially 1, nondecreasing, and both versions agree up to minute 100756 and from day 70. The full statement is false of the code: just before day 70 the versions differ (C35_versions_agree_refuted). |
| C36 | Changing K or 1/n at fixed loading preserves the loading | proved | `Props_GacFun.v` | Positive K, loading and concentration, non-zero exponents. |
| C37 | GAC beads gain exactly what crosses their surface | proved | `Props_GacColumn.v` | Library routines assumed correct: matrix inverse, increasing Legendre roots in (0,1), Jacobi roots orthogonal for r^2(1-r^2). |
| C38 | The fit returned is a grid minimum | partial | `Props_GacMin.v` | False of the code as stated: C38_minimum_refuted exhibits a 3 by 17 table of positive errors with a single minimum of 1 for which 10 is returned; C38_ties_refuted: a tied minimum raises TypeError; C38_perfect_fit_refuted: a one-entry table holding 0 raises IndexError. Proved for every table: the result is an entry with its own labels, and positive tables with one least entry always give a result; proved for at most 41 entries (any shape): the result is a least entry. The non-DataFrame branch is not modelled. |
| C39 | Search grids contain their centre and stay inside the requested band | proved | `Props_GacFun.v` | linspace is modelled; at least two points and a non-degenerate range. |
| C40 | The stepwise fit search is bounded and keeps the best point it saw | partial | `Props_GacSmart.v` | Proved: stops, number of simulations, no repeats, least error kept (all landscapes, failing simulations included), and staying on the grid for compounds whose K(1/n) was worked out at construction. The full statement is false of the code: with a user-supplied isotherm table the K factor compounds and the search leaves its grid (C40_on_grid_refuted); the documented default spread 0 fails (C40_zero_spread_refuted). nan sums of squares are not modelled; fouling estimate and spread positive. |
| C41 | Fitting several compounds keeps every compound's fit | partial | `Props_GacFit.v`, `Props_GacSmart.v` | Proved for the stepwise fit (C41_stepwise, any number of distinct compounds). The full statement is false of the code for the grid fits: every simulation resets the table, so only the last compound's fit survives run_all and at most one survives run_all_MP (C41_grid_fit_keeps_last_only, C41_parallel_fit_keeps_one_only), with a two-compound instance in C41_grid_fit_refuted. |
| C42 | Running a simulation leaves the GAC column's inputs as they were | partial | `Props_GacState.v` | Proved: every history of successful calls (run, both fits, uncertainty) on a column not modified since construction leaves inputs and derived values unchanged; uncertainty runs restore any column. The full statement is false of the code: a fit puts the construction values back over the user's changes (C42_fit_after_change_refuted, C42_fit_restores_backup), and a run that fails inside a fit or an uncertainty analysis leaves the reduced or perturbed column behind (C42_failed_fit_refuted, C42_failed_uncertainty_refuted). |
| C43 | GAC uncertainty bands contain every simulated case | partial | `Props_GacState.v` | Proved: compound by compound, the bands are the extremes of base and all requested cases and the base case is stored; in competition the same bands where pandas lets chained assignments through; recorded mass-transfer values fed back change nothing in organic-free water. The full statement is false of the code: the loading request has no effect (C43_loading_refuted), a competitive analysis stores the last case as the results (C43_competitive_results_refuted) and under copy-on-write its bands never widen (C43_competitive_bands_refuted), and in fouled water every case divides the surface diffusivity by 1e10 again (C43_fouled_refuted). |
| C44 | Supplied mass-transfer coefficients override correlations only when positive | partial | `Props_GacColumn.v` | Proved for kf and Dp always and for Ds in organic-free water. The full statement is false of the code: in other waters a supplied Ds is divided by 1e10 (C44_surface_refuted). |
| C45 | Film-transfer correlations are positive and increase with velocity | partial | `Props_Film.v`, `Props_GacFun.v` | Proved for all correlations except two, for Schmidt numbers of at least 1, for the coefficient run_psdm uses as a function of flow, and for the ion-exchange estimate. Ohashi's is proved positive and increasing within each of its three ranges. The full statement is false of the code for 'Ohashi et al' (returns a tuple, drops at Re 5.8) and 'Ko et al' (decreases with flow). |
| C46 | Full-scale bed rotation schedules meet the target | partial | `Props_Tools.v` | Proved: weights positive, sum one, one per group; with at most five groups of beds and a target that daily changes meet, the blended effluent (continued linearly past max_days, as the code does) is within the target on every day of the returned cycle, it is the returned curve, and for non-decreasing effluents no longer interval of the range complies. The full statement is false of the code: a target that cannot be met gives one day with zero effluent (C46_daily_refuted), and with six groups the search can run off its series and answer max_days unchecked (C46_many_groups_refuted). Days are whole days. |
| C47 | Replacement intervals end before the first regulatory exceedance | partial | `Props_Tools.v` | Proved for the compounds with their own limit and, when no PFBS breaks through, for the hazard index; daily values lie on the lines between results. The full statement is false of the code: the PFBS share is added to the wrong column (C47_hazard_refuted), and results without PFOA, PFOS or PFBS give an exception (C47_missing_column_refuted). Frames without missing values, non-negative last day, no column called HI; chained assignments taken to reach the frame. |
| C48 | Specific-throughput studies simulate the requested contact time | partial | `Props_Tools.v` | Proved for contact times up to the column's own. The full statement is false of the code: longer contact times shrink the bed (C48_longer_refuted), and the specification is left at the last study point (C48_specs_changed_refuted). |
| C49 | Equilibrium column model conserves mass across waves | proved | `Props_Ecm.v` | Integral balance for whatever the root finders return (C49_mass_balance; nonzero holdups). With exact roots also the jump condition at every front, the front velocity from its own zone (C49_waves) and equilibrium in every zone (C49_equilibrium). Convergence of scipy's root is not modelled. |
| C50 | Equilibrium column model treats mass and molar isotherms consistently | proved | `Props_Ecm.v` | Positive molecular weights. Also: alike compounds share one isotherm (C50_alike), and the reported single-solute capacity is the carbon that holds the compound of a litre (C50_capacity). |
| C51 | Small-column scaling preserves the scaling laws | proved | `Props_Extra.v` | Known entries and positive contact time, velocity and sizes. Also that the small column treats as many bed volumes as the large one (C51_bed_volumes). Sizes in the unit the entries are stored in; how they get there is C51_entries and C52. |
| C52 | Small-column designs do not depend on the unit of the particle diameter | partial | `Props_Extra.v` | Proved: explicit units agree with one another, a mesh agrees with its mean size as a number. The full statement is false of the code: [x, 'mm'] is stored as x/10 in the large column (C52_large_refuted) and as x/100 in the small one (C52_small_refuted), a number as x. |
| C53 | Lead-lag operation feeds each lag vessel with the lead vessel's effluent | partial | `Props_LeadLag.v` | Proved for every swap interval on the quarter-day grid for which the run completes, with any number of loops and any response; whole days from ten on do complete (C53_carbon_succeeds, C53_resin_succeeds). The full statement is false of the code: with shorter intervals the run fails (C53_short_interval_refuted). |
| C54 | Lead-lag configuration names select the right vessels | partial | `Props_LeadLag.v` | Proved for every string but gac-iex, ix-iex and iex-ix, with the default compounds. The full statement is false of the code: gac-iex is refused (C54_alias_refuted) and a list of compounds makes the mixed runs fail (C54_compounds_refuted). Objects built without errors only. |
| C55 | PAC contactor model conserves adsorbate | proved | `Props_Pac.v`, `Props_Unique.v` | Along every trajectory of the semi-discrete model, for any grid and weights, liquid content plus bead content is constant; equilibrium states are stationary. The ODE solver itself is a parameter. |
| C56 | PAC dose studies leave the contactor as it was | partial | `Props_Pac.v` | Proved: dose, duration, conversion factors and compound inputs are put back by multi-dose studies; duration, table and factors by completed waiting-time studies. The full statement is false of the code: values derived from the dose stay those of the last dose and the next run is a run at it (C56_next_run_refuted, C56_differs_refuted), waiting-time studies leave the last dose (C56_waiting_time_dose_refuted), a refused study leaves its duration (C56_refused_refuted). |
| C57 | PAC contactor geometry is consistent | proved | `Props_Pac.v` | For every sheet with positive numbers; also the dimensions given are kept, and a volume with one dimension gives all of them. |
| C58 | PAC concentrations are reported in one unit | proved | `Props_Pac.v` | Reported concentrations in ug/L and all derived values coincide for two descriptions of the same water; a run whose solver starts at one starts at the influent concentration. |
| C59 | The solver's internal time scale does not affect results | proved | `Props_IxColumn.v` | Trajectories in the exact-solution sense; reporting times whose entries are all zero are ignored by the code and excluded. |
| C60 | Batch resin volume follows from resin mass, water content and density | proved | `Props_Params.v` | Sheets with neither v nor flrt; numeric rows with accepted units. |
| C61 | Ions diffuse inside the beads by Fick's law with their own coefficients | proved | `Props_IxTransport.v` | Both column classes and both batch classes; the profile is the unique even polynomial through the grid values, so every state is covered. Root finder assumed to return increasing points in (0,1). |
| C62 | Liquid is carried through the bed at the superficial velocity | proved | `Props_IxTransport.v` | Both classes and both axial operators; linear profiles (polynomial exactness of the operators themselves is C23 and C26). |
| C63 | A batch keeps its total liquid concentration and resin capacity | proved | `Props_IxBatch.v` | The exchange equilibria have solutions along the run (loadings and concentrations may be negative); that is a hypothesis. With a divalent presaturant the start is not full (see C19). |
| C64 | A batch at equilibrium stays there and otherwise moves towards it | proved | `Props_IxBatch.v`, `Props_Unique.v` | Divalents must be present on the resin, otherwise the code's quadratic divides by zero (C13). |
| C65 | An uncertainty estimate works for every influent the column itself can run | partial | `Props_IxUnc.v` | Proved for influents in hours whose length is not within the last hour before a multiple of 12. The full statement is false of the code: influents in days always fail (C65_days_refuted), as do hour records of e.g. 23.5 h (C65_fractional_hours_refuted). |
| C66 | A GAC sheet with an unrecognised unit is refused, not silently replaced | partial | `Props_GacSheet.v` | Proved for empty unit cells of the seven dimensional rows. The full statement is false of the code: an unknown length is read as 0 (C66_unknown_length_refuted), 'mg' as ng (C66_milligrams_refuted), 'hours' as minutes (C66_hours_refuted). |
| C67 | Water properties are physical and shared by both packages | proved | `Props_GacFun.v` |  |
| C68 | GAC collocation matrices are exact | proved | `Props_GacColumn.v` |  |
| C69 | GAC mass transfer happens at the stated coefficients | partial | `Props_GacColumn.v` | The full statement is false of the code: all rates are multiplied by dgt/(1+dgt) (C69_film_rate_refuted; time is scaled with 1+dgt, coefficients with dgt). Proved: film transfer and intraparticle diffusion equal the stated law times that factor; in organic-free water with tortuosity other than 1 there is a further spurious surface term. Diffusion needs Ds different from Dp (otherwise the code divides by zero) and is stated at whole minutes. |
| C70 | The GAC column conserves mass | proved | `Props_GacColumn.v` | The inlet node has no liquid balance of its own: its liquid entry is frozen and the influent is used instead. |
| C71 | GAC equilibrium is ideal adsorbed solution theory | proved | `Props_GacColumn.v` | Non-negative loadings, at least one positive; at whole minutes (the code interpolates the fouling power in between). |
| C72 | A GAC column in equilibrium with its influent stays there | proved | `Props_GacColumn.v`, `Props_Unique.v` |  |
| C73 | GAC effluent is reported at the outlet in influent units | proved | `Props_GacColumn.v` | At whole minutes. |
| C74 | The stepwise fit search ends at a local minimum | proved | `Props_GacSmart.v` | nan sums of squares are not modelled. |
| C75 | The grid fit stores the best point of its grid | partial | `Props_GacFit.v` | Proved with a supplied isotherm table: a simulated pair is stored (both modes), and in the exhaustive mode on at most 41 pairs a least one (larger grids inherit C38's defect); the fit goes through for positive errors with one least. The full statement is false of the code: without a table 1/n = 1 is always stored (C75_no_table_stores_one, C75_no_table_refuted), the parallel fit ignores its grid when a table was supplied (C75_parallel_with_table_refuted), and the staged mode can store a worse pair than one it simulated (C75_staged_refuted). |
| C76 | The surface-diffusion fit returns the best diffusivity it tried | partial | `Props_GacState.v` | Proved: a fit that returns gives the best of the factors tried. The full statement is false of the code: with a computed isotherm table, which has no MolarVol row, the fit always raises KeyError and leaves one compound (C76_computed_table_refuted). |
| C77 | Bounds on replacement intervals are ordered | proved | `Props_Tools.v` | Frames without missing values, same days and compounds in all three. |
| C78 | The equilibrium column's plotted curve shows the zones | proved | `Props_Ecm.v` | The interpolation is the piecewise linear one of the library; at the arrival times themselves the curve jumps. |
| C79 | Column design units have their true size | proved | `Props_Extra.v` | ASCII lower-casing. The pound per cubic foot is a rounded literal: within 1e-12. |
| C80 | Mixed lead-lag systems feed the second vessel with the first vessel's effluent | proved | `Props_LeadLag.v` | Of the runs that complete. Feeds are lifted to 1e-16 (resin) and 1e-8 (carbon) where they are lower. A raw series shorter than the run is replaced by its mean (on_times in the model). |
| C81 | Lead-lag runs do not depend on earlier runs | partial | `Props_LeadLag.v` | Proved for two resin vessels; for two carbon vessels up to the flow, which a mixed run may have changed to the resin's. The full statement is false of the code: a mixed run leaves its own feed behind as the resin's influent (C81_history_refuted). |
| C82 | Mixed lead-lag systems run both vessels at the chosen flow | partial | `Props_LeadLag.v` | Proved: 'use ix', the default with resin first. The full statement is false of the code: 'use gac', the default with carbon first, changes nothing (C82_use_gac_refuted, C82_differ_refuted); a number fails (C82_number_refuted); lists are ignored (in the model). |
| C83 | Concentrations leaving a resin vessel are in the unit they entered with | partial | `Props_LeadLag.v` | Proved for ions of charge one in meq, mg, ug or ng. The full statement is false of the code: other charges come back multiplied by the charge (C83_charge_refuted), mgC and mgN are not converted back (C83_carbon_nitrogen_refuted). |
| C84 | The influent concentration of a PAC run enters its equations | partial | `Props_Pac.v` | Proved for a linear isotherm. The full statement is false of the code for every other isotherm: the equations are solved for an influent of 1 and the answer multiplied (C84_concentration_refuted). |
| C85 | The PAC dose is the carbon that takes up the adsorbate | partial | `Props_Pac.v` | Proved: the balance holds with the dose times carbon density over water density. The full statement is false of the code unless the two agree (C85_dose_refuted). |
| C86 | Missing PAC inputs are counted | partial | `Props_Pac.v` | Proved for contactors described without a volume row. The full statement is false of the code: a length found from the volume is subtracted though never counted (C86_count_refuted), and without flow or length row there is an exception instead (C86_exception_refuted). |
| C87 | The reported contact time of a PAC study reaches the target | proved | `Props_Pac.v` | For strictly falling curves with at least two points; blanks characterised for all curves. |
| C88 | PAC reference curves solve their own models | proved | `Props_Pac.v` | Both reference curves, for all times. |
| C89 | PAC unit names have their true sizes | proved | `Props_Pac.v` | All five tables: exactly the names listed, each with its true size. |
| C90 | A rectangular PAC contactor has the aspect ratio given | partial | `Props_Pac.v` | Proved when the length is given. The full statement is false of the code: with the length found from height and volume the aspect ratio is dropped (C90_volume_refuted). |
| C91 | Measurements survive loading | partial | `Props_GacData.v` | Proved for the rows and for times at which every compound of the stream was measured. The full statement is false of the code: where another compound was not measured the reading is replaced by an interpolated value (C91_other_compound_refuted). |
| C92 | Gaps between measurements are filled with straight lines | proved | `Props_GacData.v` | Interpolation and extrapolation at every positive time, both streams. |
| C93 | Loaded streams have no holes and a true start | partial | `Props_GacData.v` | Proved for all positive times, and for time zero when both streams were fully measured then. The full statement is false of the code: records that start later get a zero influent at time zero (C93_late_start_refuted), and an influent first measured after an effluent of time zero is missing there (C93_missing_start_refuted). |
| C94 | The estimated K reproduces the measured loading | proved | `Props_GacCapacity.v` | For both ways of finding the breakthrough time. |
| C95 | The K offered for another 1/n keeps the loading | partial | `Props_GacCapacity.v` | Proved for estimated breakthrough. The full statement is false of the code with prescribed breakthrough days (break_type force): the function offered is one everywhere (C95_forced_refuted). |
| C96 | The estimated loading is the mass taken up | proved | `Props_GacCapacity.v` | Numerical integration is assumed exact on the two streams concerned. The points that fits add are characterised. |
| C97 | The breakthrough time is when effluent reaches influent | partial | `Props_GacCapacity.v` | Proved for crossings from day 1 on with at least two positive effluent readings. The full statement is false of the code: a crossing on day 0 is taken as breakthrough at the end of the record (C97_immediate_refuted), and with a single positive effluent reading the end of the data is used whatever its height (C97_single_reading_refuted). |
| C98 | The estimated loading does not depend on the unit of time | partial | `Props_GacCapacity.v` | Proved without effluent up to 2000 time units. The full statement is false of the code: times over 2000 are dropped in any unit, so a week in minutes gives the smallest loading (C98_small_unit_refuted). |
| C99 | The estimate of fouling is the average one | proved | `Props_GacCapacity.v` | Any fouling function with a positive lower bound. |
| C100 | The web application uses the mass-transfer coefficients in the table | partial | `Props_GacShiny.v` | Proved when the row has numbers only. The full statement is false of the code: a text under one compound drops the numbers of the compounds to its right (C100_text_refuted). |
| C101 | The web application keeps the user's readings | partial | `Props_GacShiny.v` | Proved when all readings are at whole units of time. The full statement is false of the code: readings between whole units are lost (C101_between_refuted). |
| C102 | The web application shows the simulated concentrations | proved | `Props_GacShiny.v` | For every capacity estimate, search and simulation, with 2000 results as model_uncertainty makes them. |
| C103 | A fit from the web application uses the effluent readings | partial | `Props_GacShiny.v` | Proved when the carbon is named like the effluent, as the application does. The full statement is false of the code: with any other name every fit fails with a KeyError (C103_names_refuted). |
| C104 | The web application is told about problems | partial | `Props_GacShiny.v` | Proved when the names, parameters of every compound and an influent time are present. The full statement is false of the code: missing isotherm parameters raise, and so does an unreadable number in a fit (C104_raised_refuted, C104_fit_raised_refuted). |
| C105 | Exact batch data give back the isotherm | proved | `Props_Isotherm.v` | Three theorems, one per isotherm, for every solver that finds a least-squares fit among non-negative parameters; two different concentrations are enough for Freundlich and Langmuir, three for Redlich-Peterson. |
| C106 | Each isotherm parameter is shown with its own standard error | partial | `Props_Isotherm.v` | Proved for the returned frame. The full statement is false of the code: the title shows the first parameter's error beside the second (C106_title_refuted). |
| C107 | Isotherm fits use the loadings of the given concentrations | partial | `Props_Isotherm.v` | Proved for a frame without a column q, and that the other columns are left alone. The full statement is false of the code: a call writes a column q to the caller's frame and a later call uses it after the concentrations have changed (C107_second_call_refuted). |
| C108 | Confidence and prediction bands of an isotherm fit | proved | `Props_Isotherm.v` | For every Student quantile that is not negative. |
| C109 | Names of isotherms | partial | `Props_Isotherm.v` | Proved for the three names. The full statement is false of the code: another name prints a warning and then raises UnboundLocalError (C109_unknown_refuted). |
| C110 | A perfect score of an equilibrium-column fit means a match | partial | `Props_EcmFit.v` | Proved: not negative, zero exactly when all days or all peaks are reproduced. The full statement is false of the code, which multiplies the two errors (C110_peaks_ignored_refuted). |
| C111 | After a fit the equilibrium column has the fitted parameters | partial | `Props_EcmFit.v` | Proved when the returned point was the last one tried. The full statement is false of the code: it leaves the last trial (C111_perturbed_refuted). |
| C112 | The score of a fit to records uses the whole records | partial | `Props_EcmFit.v` | Proved when all records end at the same time. The full statement is false of the code: the last time of the first record is used for all (C112_short_first_refuted). |
| C113 | The raw-data reader keeps what was measured | partial | `Props_GacLegacy.v` | Proved for measured values, for which cells exist and for the carbons. The full statement is false of the code: missing values become zero (C113_missing_refuted). |
| C114 | The older workbook reader agrees with the current one | partial | `Props_GacLegacy.v` | Proved when no mean equals a reporting limit other than zero, with a pandas that lets chained assignments through. The full statement is false of the code: a mean equal to the limit is kept by one and made zero by the other (C114_limit_refuted). |
| C115 | Selecting compounds keeps their columns | proved | `Props_GacLegacy.v` |  |
| C116 | The finite-difference Jacobian is the Jacobian | proved | `Props_GacLegacy.v` |  |
| C117 | A full-scale prediction leaves the column as it was | partial | `Props_GacAnalyze.v` | Proved for the settings, and for the data when they reach the last day. The full statement is false of the code: the last time of the caller's data is overwritten (C117_index_refuted), and a failing run leaves the search off and the compounds replaced (C117_failure_refuted). |
| C118 | Analysing all compounds stores every fit | partial | `Props_GacAnalyze.v` | Proved for isotherm fits and for surface-diffusion fits with the search on. The full statement is false of the code: with the search off the surface-diffusion study raises UnboundLocalError at the first compound (C118_ds_no_search_refuted). |
| C119 | A batch reactor's results are in the requested units | proved | `Props_IxRun.v` |  |
| C120 | A unit corrected at the prompt is the unit of the results | partial | `Props_IxRun.v` | Proved for columns. The full statement is false of the code: a batch reactor saves in the sheet's own unit even when it was corrected at the prompt, so saving ends the program and the run is lost (C120_batch_lost, C120_batch_refuted). |
| C121 | The command line runs the named model and saves in the asked units | proved | `Props_IxRun.v` |  |
| C122 | The web application's collocation is the package's | proved | `Props_RIexSolve.v` |  |
| C123 | The web application's solver computes the package's rates | partial | `Props_RIexSolve.v` | Proved for the liquid, and for the resin when all ions but the presaturant share their diffusivities. The full statement is false of the code: the gel solver recycles the diffusivities down the wrong axis (C123_diffusivity_used_partial says what it uses), so rates differ as soon as two ions differ (C123_rates_refuted), and sheets the package accepts stop with an array error (C123_sheets_refuted). |
| C124 | The web application's solver keeps resin sites and ions balanced | proved | `Props_RIexSolve.v` |  |
| C125 | In the web application every ion is fed with its own influent | partial | `Props_RIexApp.v` | Proved when the influent columns are in the order of the ion sheet, and the comparison of names is exact. The full statement is false of the code: columns are taken by position, so columns in another order pass the check and swap the influents (C125_own_influent_refuted). |
| C126 | The web application hands the solver the entered quantities | proved | `Props_RIexApp.v` |  |
| C127 | The web application converts concentrations correctly | partial | `Props_RIexApp.v` | Proved for all units except meq/L on the way in. The full statement is false of the code: influents in meq/L are multiplied by valence over molecular weight once more (C127_to_meq_refuted). |
| C128 | The web application saves results in the chosen units | partial | `Props_RIexApp.v` | Proved for output units and for PFOA. The full statement is false of the code: without PFOA nothing can be saved (C128_saving_refuted), and other ions are saved in meq/L whatever their unit (C128_input_units_refuted). |
| C129 | Times on the web application's axes are right | partial | `Props_RIexApp.v` | Proved for results and for influents in hr, day and Days. The full statement is false of the code: influents in every other unit are drawn as if given in days (C129_influent_axis_refuted). |
| C130 | The alkalinity calculator balances | proved | `Props_RIexApp.v` |  |
| C131 | The film-transfer calculator uses the entered bead and velocity | partial | `Props_RIexApp.v` | Proved in cm and cm/s. The full statement is false of the code: units of the bead radius and velocity are ignored (C131_units_refuted). |
| C132 | Every ion is drawn | partial | `Props_RIexApp.v` | Proved when the counter-ions come first in the sheet. The full statement is false of the code: the plots split results by position, and a counter-ion listed later is in neither (C132_all_drawn_refuted). |
| C133 | Relative concentrations are relative to the ion's own influent | partial | `Props_RIexApp.v` | Proved when the influent columns are in the order of the ion sheet, each first influent being converted correctly in every unit. The full statement is false of the code in another order (C133_order_refuted), and in meq/L where the solver is fed something else (C133_meq_refuted). |
| C134 | The carbon app hands over the column on the page | partial | `Props_RGacApp.v` | Proved for every offered unit but pounds, gpm/ft^2 and mgd, for pounds within 2e-6 and for gpm/ft^2 within 1e-11 (truncated constants). The full statement is false of the code: a flow in mgd goes in 1440 times too large (C134_mgd_refuted). |
| C135 | The carbon app's multipliers bring data to ug/L and minutes | partial | `Props_RGacApp.v` | Proved for ug, ng, mg, mg/L, days and hours. The full statement is false of the code: other names the application knows, such as ug/L or Days, get the multiplier of mg and of hours (C135_other_names_refuted). |
| C136 | The carbon app's axes show the data in the selected units | partial | `Props_RGacApp.v` | Proved for concentrations, for times of data in days and for bed volumes with a volumetric flow. The full statement is false of the code: data in hours are drawn as if in days (C136_times_refuted), and with a linear velocity the bed volumes are a sixtieth of the true ones (C136_linear_beds_refuted). |
| C137 | The carbon app's C/C0 is relative to the compound's own influent | partial | `Props_RGacApp.v` | Proved for computed results whose columns are in the order of the influents, and for measurements of a single compound. The full statement is false of the code: columns are divided by position (C137_order_refuted), and with several compounds measured values are written along rows to points listed along columns (C137_measured_refuted). |
| C138 | A run the carbon app accepts is one the package can make | partial | `Props_RGacApp.v` | Proved for fouling, and for the porosity if the grains are denser than the bed. The full statement is false of the code: the particle density is not checked (C138_porosity_refuted). |
| C139 | The carbon app uses the collocation points chosen | partial | `Props_RGacApp.v` | The statement is false of the code: the sliders are not read, and the model runs with 7 and 12 points whatever is chosen (C139_points_refuted). |
| C140 | A workbook saved by the carbon app restores the session | partial | `Props_RGacApp.v` | Proved for a volumetric flow and densities in g/ml, and for tables with distinct times. The full statement is false of the code: a linear velocity is not saved (C140_linear_refuted), and repeated times are refused (C140_repeated_time_refuted). |
| C141 | Use Data takes over fitted parameters only | partial | `Props_RGacApp.v` | Proved after a successful fit with a nonzero first parameter. The full statement is false of the code: without a fit or after a failed one the stored parameters are overwritten by placeholders (C141_no_fit_refuted). |
| C142 | Every measurement is drawn once | partial | `Props_RGacApp.v` | Proved for influents and for effluents with at least two rows. The full statement is false of the code: a single row of effluents is not drawn (C142_single_row_refuted). |
| C143 | Powdered-carbon results are drawn in the chosen units | proved | `Props_RPacApp.v` | Every offered unit of mass and time. |
| C144 | Powdered-carbon relative concentrations use the compound's own influent | partial | `Props_RPacApp.v` | Proved for sheets with exactly two compounds. The full statement is false of the code: with one compound every second value is missing, with three the third is divided by the influent of the first (C144_one_refuted, C144_three_refuted). |
| C145 | The dosage study covers the doses chosen | partial | `Props_RPacApp.v` | Proved of the concentrations by dose. False of the waiting times, which are always given at 5, 25, ..., 145 mg/L (C145_target_doses_refuted). |
| C146 | Waiting times are those of the water in the sheet | partial | `Props_RPacApp.v` | Proved when all units of the sheet are the one chosen for the target study. The full statement is false of the code: otherwise the units of the sheet are replaced without converting the numbers (C146_units_refuted). |
| C147 | A powdered-carbon workbook is used and saved as it is | partial | `Props_RPacApp.v` | Proved for workbooks whose radius has at most four significant digits. The full statement is false of the code: a longer radius is rounded, and the saved sheets are those read at the start (C147_radius_refuted, C147_saved_refuted); sizes of the contactor are not taken from the workbook (C147_sizes_refuted). |
| C148 | The balances survive the numerical integration | proved | `Props_Solver.v` | For every state built from the start by adding linear combinations of values of the right-hand side and of differences of earlier states (S_Solver.v), and scipy's BDF and every explicit Runge-Kutta method are shown to build their states so (C148_bdf, C148_runge_kutta). Arithmetic is exact; the description of the library's methods is part of the trusted base. |
| C149 | The numerical integration keeps an equilibrium | proved | `Props_Solver.v` | For scipy's BDF as described in S_Solver.v and every explicit Runge-Kutta method; granular carbon with either, powdered carbon with Runge-Kutta (the method it gets, since it passes 'BDF' under a name that the library does not know). Arithmetic is exact. |
| C150 | Only simulated values are reported | partial | `Props_Outcome.v` | Proved for ion exchange and powdered carbon, and for granular carbon within the time that the integrator covered. The full statement is false of the code: the success flag is never looked at and the granular-carbon result is prolonged along its last segment, even to negative concentrations (C150_granular_beyond_refuted, C150_granular_refuted). |
| C151 | The web application's own copy of the granular-carbon package is the package | partial | `Props_GacCopy.v` | In organic-free water the copies agree in everything; film and pore coefficients always agree. The full statement is false of the code: in every other water the copy divides the surface diffusivity by 1e15 instead of 1e10 (C151_surface_refuted), and the rates then differ by exactly the missing surface-diffusion flux (C151_fouled_rates_partial, C151_rates_refuted). The grid fit run_all of the copy never writes a candidate to the isotherm table: without a table it is the package's (C151_fit_without_table_partial), with one it ends in an error for every range of two or more multipliers (C151_fit_refuted). The float() casts are not modelled. |
| C152 | The surface diffusivity by correlation gives the requested flux ratio | partial | `Props_GacColumn.v` | Proved for organic-free water. The full statement is false of the code: in every other water the ratio is the requested one over 1e10 (C152_flux_ratio_refuted). |
| C153 | Declaring the sparsity of the Jacobian does not change it | proved | `Props_Sparse.v` | For scipy's num_jac as described in S_Sparse.v and every grouping in which no two unknowns of a group share a declared row; with it C148 and C149 hold of the integrations with a declared pattern. |
| C154 | The order of the ions or compounds does not matter | proved | `Props_Order.v` | Ion-exchange columns and batches with the presaturant kept first, and granular carbon. Arithmetic is exact. |
| C155 | Listing an ion or compound that is nowhere present changes nothing | partial | `Props_Order.v` | Proved for ion-exchange columns unless the absent ion is the only divalent one, and then as long as the presaturant's coefficient is one and the resin still holds some of it; proved for batches unless the absent ion is divalent. The full statement is false of the code: an absent divalent ion starts a batch with a thousandth of the capacity (C155_batch_refuted), and an absent compound makes granular carbon take up the others faster (C155_granular_refuted). |
| C156 | A mesh designation stands for the mean of its two sieve openings | partial | `Props_Extra.v` | Proved for every pair of sieves from 4 to 400: openings as rounded in the nominal series, so within one percent. The full statement is false of the code: an unknown sieve counts as an opening of zero (C156_unknown_refuted). |
| C157 | The powdered-carbon page simulates the contactor entered | partial | `Props_RPacApp.v` | With 'Volume' selected it holds in all offered units. The full statement is false of the code: the page calls the format 'Square', the class knows only 'square', so that the width is NaN and the volume entered is used whatever is selected (C157_dimensions_refuted). The results do not depend on it: neither sizes nor flow enter the equations (C157_results_partial). |
| C158 | A run is determined by its inputs | partial | `Props_Unique.v` | Proved for ion-exchange columns in normal use, that is as long as the exchange equilibrium has a solution wherever the code computes it; loadings and concentrations may be negative, as they are in fresh beds (C185), and every run of a fresh bed is in normal use for some time (C158_fresh_bed_partial); for granular and powdered carbon without any condition on the state but with Freundlich exponents 1/n of at most one; for batches likewise, where moreover the divalent charge the formula divides by must be positive. With it the equilibrium statements hold of every run, not only of the constant one. Missing: states outside these ranges, where the code divides by zero or takes roots that are not Lipschitz. |
| C159 | Stopping a column and restarting it from its saved state continues the run | partial | `Props_Unique.v` | Proved for both column classes and any time units while the run is in normal use (the exchange equilibrium has a solution wherever the code computes it). The liquid at the inlet is compared as the influent, which the model reads there. Missing: states outside normal use, and the rounding of the saved state. |
| C160 | After an upload a web page shows the uploaded workbook, and the defaults for sheets it leaves out | partial | `Props_RUpload.v` | Proved for the three pages and every history: each table is the one of the last workbook, of anybody, that has the sheet; the effluents of the ion-exchange page and the fouling of the carbon page do fall back to their defaults. The full statement is false of the code: a sheet that is left out keeps what was uploaded before (C160_missing_sheet_refuted, for every such history). |
| C161 | Users of a web page do not see each other's data | partial | `Props_RUpload.v` | Proved that a page that is open is not changed by other sessions. The full statement is false of the code: the tables are kept in one directory of the server, so a page opened after somebody's upload shows that upload (C161_other_session_refuted). |
| C162 | The parameter sheet uploaded to the ion-exchange page reaches the solver | partial | `Props_RIexSession.v` | Proved for every sheet: lengths, velocity, points and time unit exactly; capacity, porosities and bead radius exactly if the value column holds a text anywhere (as in the shipped and in saved workbooks) or the numbers have four digits, and to one part in 2000 otherwise. The full statement is false of the code: numbers in a purely numeric column are cut to four digits (C162_digits_refuted). Not modelled: the decimals the boxes keep. |
| C163 | A workbook saved from the ion-exchange page brings the run back | proved | `Props_RIexSession.v` | Numbers are reals: the 15 digits R writes and the decimals the boxes keep are not modelled. The pellet porosity is compared for macroporous resins, the only ones whose solver uses it. |
| C164 | The results on the ion-exchange page are those of the last successful run | partial | `Props_RIexSession.v` | Proved: the check (both directions), and the display as long as the ion sheet is left as it was in the last successful run, with any number of refused or failing runs and edits of the influents in between. The full statement is false of the code: rows exchanged without a run get each other's conversion factors (C164_edit_refuted), and a refused run relabels the old results (C164_refused_refuted). |
| C165 | A lead-lag system refuses to run if and only if something was found wrong with its inputs | partial | `Props_LeadLagInit.v` | Proved: without a workbook faulty inputs never give a system that runs (the constructor fails); with a workbook a run is refused exactly if its influents cannot be read. The full statement is false of the code: reading the influents clears the flag of every earlier error (C165_workbook_refuted, for every such call). |
| C166 | A lead-lag system runs resin vessels with the ions and parameters it was given | partial | `Props_LeadLagInit.v` | Proved for workbooks. The full statement is false of the code: a system set up by arguments keeps its ions as a plain list, which cannot be written to a sheet, so that no resin vessel of it can be run (C166_arguments_refuted, for every such call). |
| C167 | Selectivities are those given, multiplied by the factor of their range, and arguments are not changed | partial | `Props_LeadLagInit.v` | Proved: the table (names, order, selectivities) whenever no selectivity equals the upper bound, and that adding a compound again changes nothing. The full statement is false of the code: a selectivity equal to the upper bound gets neither factor (C167_bound_refuted), rows of the caller's own counterion list are changed (C167_caller_refuted), and add_resin_selectivity ignores the selectivity in the call (C167_argument_refuted). |
| C168 | A simulation can be started and goes on until its end or until a named event | proved | `Props_BedLasts.v`, `Props_Exist.v` | Both ion-exchange columns, both batch reactors, the granular-carbon column (any competing compounds, exponents 1/n of at most one, any starting state) and the powdered-carbon contactor. The carbon models need the exponent condition, which is what physically sensible means there. For the powdered carbon C188_lasts bounds the run, so it lasts for every duration; C168_one_compound_bed_lasts does so for granular carbon with one compound on two radial points and surface diffusion slower than pore diffusion. |
| C169 | Crank's reference curve of a contactor is the diffusion model's solution and agrees with the run it is compared to | partial | `Props_PacCrank.v` | Proved: the roots are exactly the solutions below (n+1) pi, the curve falls strictly between 1 and the equilibrium level of its distribution coefficient and tends to it, and it solves the diffusion model. The full statement is false of the code: the series is cut off after 500 terms and never starts from 1 (C169_start_refuted), and the level differs from the concentration the run ends with (C169_level_refuted), because the run counts the carbon with the density of water. |
| C170 | The reference curve with a film is the solution of the film and diffusion model, and each compound has its own | partial | `Props_PacHsdm.v` | Proved for Biot numbers above one where the point that splits the first interval is not a root: the roots are exactly the solutions below (n+3/2) pi, the curve exists, falls strictly between 1 and the equilibrium level and tends to it, and it solves the model of film and diffusion. The full statement is false of the code: a root at the split point is counted twice (C170_twice_refuted), with a Biot number below one a root is missed when the fraction has its pole in a later interval (C170_missed_refuted), the series is cut off and never starts from 1 (C170_start_refuted), and a compound whose roots are not found takes the curves of all others with it (C170_others_refuted). |
| C171 | Similar equipment gives the same results | proved | `Props_Similar.v` | Columns with any influent and any solver time unit (C171_column, C171_column_solver), batches, powdered carbon, carbon columns with the same contact time in any water, and with r times the contact time in steady water; C171_small_column joins it to the small-column designer of C51. Coefficients of carbon columns are supplied, not from correlations. |
| C172 | Concentrations scale together | partial | `Props_Similar.v` | Full for ion-exchange columns and batches. For carbon columns only when every compound is in the water at the start (C172_granular_partial); with a compound that is absent at the start the full statement is false of the code (C172_granular_refuted): the number 1 put in place of its concentration does not scale. |
| C173 | Listing an ion in several rows gives the same totals | partial | `Props_Split.v` | Full for columns: the totals are a run (C173_column), start alike (C173_column_start), read the summed influent (C173_influent) and by uniqueness are the run (C173_column_results, in normal use). For batches the totals satisfy the equations (C173_batch) and the start agrees unless a divalent ion has several rows (C173_batch_start_partial); then the full statement is false of the code (C173_batch_start_refuted): each row starts with a thousandth of the capacity. |
| C174 | A conversion reports the unit its factor belongs to | partial | `Props_UnitReport.v` | Proved of lengths, volumes, times, areas, weights, concentrations, velocities, diffusivities and capacities, for every dialogue, and of flows and densities without gallons; gallons per minute keep their factor. The full statement is false of the code: any other flow in gallons and any density per gallon is reported in a spelling that raises IndexError (C174_gallons_refuted), and gpm turned into a velocity in one that has to be asked for again. |
| C175 | A dose study shows what separate runs would | proved | `Props_Doses.v` | Concentrations by dose, waiting times by dose and by starting concentration, and the study of the web page, after every sequence of earlier studies. The solver is any function of the equations and the duration. |
| C176 | In a carbon-resin train what the carbon does not treat reaches the resin as raw water | partial | `Props_Untreated.v` | The full statement is false of the code (C176_untreated_refuted: in every run that ends, such a compound is fed to the resin at 1e-16 and reported as 0 between the vessels). Proved: counterions held steady in the resin's sheet keep their value (C176_counterions_partial). |
| C177 | A fit stays within the ranges the user gave | partial | `Props_FitRange.v` | The full statement is false of the staged mode (C177_outside_refuted: ranges 0.05-0.15 and 0.31-0.34, stored K = 0 and 1/n = 0.3). Proved: the exhaustive mode tries only the given values (C177_exhaustive_partial); the staged mode stays within 0.05 and 0.2 of the ranges and stores a 1/n at most the greatest given (C177_near_the_ranges_partial); the next interval always holds the best value (C177_next_interval). |
| C178 | A powdered-carbon run follows film transfer and pore and surface diffusion | proved | `Props_PacTransport.v` | The solver that integrates the equations is a parameter; the theorems are about the right-hand side it is given and what is done with its answer. |
| C179 | The dimensionless groups of a powdered-carbon study are those of its transport | partial | `Props_PacGroups.v` | Proved for the distribution numbers, the loading and the diffusion time scales, and for the Biot number without surface diffusion or without pores. The full statement is false of the code: the Biot number weighs surface diffusion with the pores' share of the capacity too and is always too small (C179_biot_refuted). |
| C180 | Measured influents and effluents are drawn at their own times and concentrations on the ion-exchange page | partial | `Props_RIexPlots.v` | Proved for sheets that list the ions of the page, times in hours or days and more than one row of effluents, relative concentrations for columns in the order of the ion sheet and no ion in meq/L. The full statement is false of the code: effluents that leave out an ion keep the influents from being drawn even when effluents are not asked for (C180_missing_refuted), a single row is not drawn (C180_single_row_refuted), and relative effluents are divided by position (C180_order_refuted). |
| C181 | The results on the granular-carbon page and in its workbook are those of the last successful run | partial | `Props_RGacSession.v` | Proved for every sequence of edits, refused and failed runs: concentrations as long as the unit of the concentrations is that of the run, relative concentrations as long as the button is not pressed again, bed volumes with the column on the page. The full statement is false of the code: another concentration unit rescales old results (C181_units_refuted), another length moves them on the bed-volume axis (C181_beds_refuted), a refused run divides them by the new influents (C181_relative_refuted), the workbook has no results when they are not drawn (C181_unticked_refuted) and holds them beside whatever inputs the page has by then (C181_inputs_refuted). |
| C182 | A resin column is run on the values of its sheet, each ion by its name, and not at all when one is missing | partial | `Props_IxInputs.v` | Proved: parameters, coefficients and influents of the run, that a missing one stops it, and that complete sheets run, for both models. The link from a row of the sheet to its ion is proved for influents without alkalinity and pH (C182_ions_partial); with them the full statement is false of the code, whose valences then belong to other rows (C10_valence_order_refuted). |
| C183 | A film-transfer correlation chosen by name is the one of that name | partial | `Props_Film.v` | Proved for seven of the nine names and for all other names. The Sherwood numbers are written down from the code's citations, with the exponents it has; the publications themselves were not available. The full statement is false of the code: Ohashi's comes as a tuple (C183_ohashi_refuted), Ko's is divided by the powers it should be multiplied with (C183_ko_refuted), and Kataoka and Wakao are known under misspelt names only (C183_spelling_refuted). |
| C184 | A breakthrough after the end of the record is where the extrapolated effluent reaches the influent | partial | `Props_GacExtrap.v` | Proved for logistic curves and for regressions through the readings with effluent, with breakthrough from day 1 to 2000; the fits themselves are any functions. The full statement is false of the code for the verdict from one reading: its line starts from zero at the last reading but one, which puts breakthrough too early when that one already shows effluent (C184_single_point_refuted). |
| C185 | Simulated concentrations are never negative | partial | `Props_Negative.v` | The full statement is false of the code: from a fresh bed every ion of the influent is at once negative at the second point below the inlet (C185_column_refuted), and in the effluent too when the bed has an odd number of points and no finite elements (C185_effluent_refuted); the axial derivative is a polynomial one and its first column alternates in sign. Proved about the first moments: which points are positive and which negative (C185_start_partial). Missing: signs at later times and with points beyond the first element. |
| C186 | The results on the powdered-carbon page and in its workbook are those of the last run and the last study | partial | `Props_RPacSession.v` | Proved for every sequence of edits, runs and studies that did not fail: the curves (C186_last_run), C/C0 for two compounds (C186_relative_partial; other numbers are C144), concentrations by dose (C186_last_study), waiting times (C186_waiting) and what is saved. The full statement is false of the code: the plot of waiting times is titled with the target entered now (C186_title_refuted), an error in a button ends the session with all results (C186_failed_refuted), and the workbook holds the uploaded contactor and the present compounds beside the results of other inputs (C186_inputs_refuted). |
| C187 | The radial grid integrates exactly and diffusion inside a bead only evens out | proved | `Props_Radial.v`, `Props_RadialOne.v` | The points are assumed to be what scipy's roots_sh_jacobi is documented to return (jacobi_roots); C187_points shows that such points exist for every number of points and every shape, C187_points_unique that there is only one choice, and C187_one_grid that the operators are the same for every root finder that returns them. |
| C188 | The concentration in a powdered-carbon contactor stays between film transfer alone and what was put in | proved | `Props_PacBound.v` | In exact arithmetic along an exact run. Pore diffusivity not below surface diffusivity. C188_lasts: runs last for every duration; C188_table: the result tables of an exact integration. |
| C189 | A powdered-carbon contactor left alone settles at the equilibrium of isotherm and mass balance | proved | `Props_PacSettle.v` | In exact arithmetic along exact runs; 1/n of at most one, a positive surface diffusivity not above the pore diffusivity. C188_lasts: such runs exist for every duration. |
| C190 | The distribution coefficient behind the powdered-carbon reference curves is that of equilibrium | partial | `Props_PacKd.v` | The full statement is false of the code: 3000 minutes are not enough for a slow film (C190_duration_refuted). Proved: the longer the run, the nearer the coefficient comes to that of equilibrium, up to the factor density that the code puts in (C190_limit_partial). |
| C191 | A granular-carbon run never computes a negative concentration | partial | `Props_GacNegative.v` | The full statement is false of the code: from a fresh bed every compound the influent carries is at once negative at the second point below the inlet and every second one after it in the first element (C191_column_refuted), and in the effluent too when there is one element with an odd number of points; zero is then reported (C191_effluent_refuted). At the other points of the first element it is at once positive, and with an even number of points so is the reported effluent (C191_start_partial). Reported values are never negative (C73_reported_nonneg). Missing: signs at later times and with points beyond the first element; exponents 1/n above one. |
| C192 | A simulation that no longer changes is exhausted, and there is one such state | proved | `Props_Rest.v` | For columns of both ion-exchange models (C192_ion_column, C192_ion_column_unique; presaturant present on the resin, surface diffusion at most pore diffusion), batch reactors (C192_batch, C192_batch_unique) and granular carbon (C192_carbon, C192_carbon_unique; tortuosity times surface diffusion at most pore diffusion, any Freundlich exponents). That such states are at rest is C18, C64 and C72. |
| C193 | A simulation that settles, settles at exhaustion and forgets its start | proved | `Props_Settle.v` | Ion-exchange columns (C193_ion_column, C193_ion_column_forgets), batch reactors (C193_batch, C193_batch_forgets) and granular carbon (C193_carbon, C193_carbon_forgets; Freundlich exponents 1/n at most 1). The limit must hold presaturant on the resin (and, in a batch reactor, every divalent ion, since its formula divides by their sum), so the influent must carry the presaturant. That a run settles is assumed here, not proved; for powdered carbon it is proved (C189). |
| C194 | Every influent has its exhausted state | proved | `Props_Exhaust.v` | Columns (C194_ion_column, an equivalence; C194_monovalent_shares), batch reactors (C194_batch), granular carbon (C194_carbon). Uniqueness is C192. |
| C195 | A batch reactor settles | proved | `Props_BatchTwo.v`, `Props_Binary.v`, `Props_Divalent.v`, `Props_ManyIons.v` | C195_two_ions_settle, C195_two_ions_forget; C195_fresh_start shows that fresh reactors start with the totals asked for. Settling is proved here, not assumed as in C193. The sign condition is on the run (with surface diffusion only at the bead surface); with monovalent ions on one or two radial points it is proved to hold (C195_two_points_settle). With any number of monovalent ions on one or two radial points nothing is assumed of the run and no presaturant is asked for (C195_many_ions_settle, C195_many_ions_forget; such runs exist by C200_endless): the free energy falls until film and bead are in equilibrium. With divalent ions among them the same holds from every start with presaturant and a divalent ion at every radial point (C195_divalent_settle, C195_divalent_forget; runs exist by C200_divalent_endless). Three or more ions on three or more radial points are outside. |
| C196 | Loadings inside a grain or bead are never negative | partial | `Props_BatchTwo.v`, `Props_Divalent.v`, `Props_InletTwo.v`, `Props_Inside.v`, `Props_InsideBatch.v`, `Props_InsideGac.v`, `Props_InsideTwo.v`, `Props_OnePoint.v` | The full statement is false of the code on every grid of three or more radial points: at once the loading is negative two points below the surface, four below, and so on (C196_contactor_refuted, C196_column_refuted, C196_bed_refuted, C196_batch_refuted), and positive at the points between (C196_contactor_start, C196_column_start, C196_bed_start, C196_batch_start; in a batch for ions that the resin starts without): the column of the radial operator that belongs to the surface alternates in sign. On one or two points the loadings of a contactor stay non-negative to the end of every run, for every exponent (C196_two_points_partial), and so do, on two points, those of the grains at the inlet of a granular-carbon bed, for every mixture and exponent, while surface diffusion is not faster than pore diffusion (C196_bed_two_points_partial), and everything in a batch on one or two points, of monovalent ions (C196_batch_two_points_partial) or with divalent ions, presaturant and a divalent ion being on the resin at the start (C196_divalent_two_points_partial). At the inlet of an ion-exchange column on two points whose ions share one film, one surface and one pore coefficient, every bead keeps its capacity, its presaturant and loadings between zero and capacity, with or without divalent ions, for every influent without negative concentrations (C196_column_two_points_partial; from fresh resin C196_column_two_points_fresh_partial), and so it is on one point if the ions share one film coefficient (C196_column_one_point_partial). Missing: columns on one or two points with unequal coefficients; beads and grains below the inlet, exponents of one in a bed; signs at later times on more points. |
| C197 | The bed is fed what the influent sheet says, from the first row on | partial | `Props_First.v` | Proved: with copy-on-write, and without it for every compound present at time zero, the relative influent times its reference is the sheet in molar units, row by row. The full statement is false of the code without copy-on-write (the default before pandas 3; the repository names no version): the one that replaces a zero reference is written through the view into the first row of the sheet, so that a compound absent at time zero is fed at one micromole per litre there, falling linearly to the second row (C197_first_rows_refuted), and a clean bed takes up a compound that is nowhere in its sheet (C197_absent_refuted). The second of two carbon beds in series always has such a zero (C197_second_bed). That the row is a view rests on pandas' single-block fast path, which the model takes as given. |
| C198 | The isotherm table handed to a granular-carbon column stays the caller's | partial | `Props_Share.v` | Proved: programs that force no breakthrough days and leave the optimizer off change no table of the caller's, with any number of columns, tables and fits (grid trials included where pandas copies on write), a column that has been fitted once never writes to a table of the caller's again, and a column with a table to itself that does not optimize runs every compound with the values at construction however often (C198_repeat_partial). The full statement is false of the code, which stores the caller's frame without copying: the first fit with the optimizer on leaves the last pair tried in it (C198_fit_refuted), a second column on the same table runs once with that pair and afterwards with the original (C198_two_columns_refuted), forced breakthrough days replace columns of it in the constructor (C198_force_refuted), and without copy-on-write a grid search leaves its first pair in it (C198_grid_refuted). Runs that raise are not modelled here. |
| C199 | All programs divide a sphere and a bed in the same way | proved | `Props_InsideGac.v` | Radii, diffusion matrix and weights (C199_one_sphere), positivity of the weights (C199_weights) and the axial matrix below the inlet (C199_one_axis). The root finders and numpy's inverse are parameters with their documented contracts. Nothing is claimed about the inlet row of the axial matrix. |
| C200 | A batch on a coarse radial grid runs to any end and stays physical | proved | `Props_BatchTwo.v`, `Props_Divalent.v`, `Props_ManyIons.v` | C200_lasts (runs to any end), C200_endless (one run for all times), C200_fresh_start (the start the code makes is admitted). C200_stays_physical (bounds, totals, presence). That they settle is C195_many_ions_settle. With divalent ions: C200_divalent_lasts, C200_divalent_endless, C200_divalent_stays_physical, and C200_divalent_fresh_start (the start the code makes has a thousandth of the capacity of each divalent ion, so with at most a thousand ions presaturant is left). The run is the exact solution of the equations the code passes to the solver. On three or more points the first moments already break the bounds (C196_batch_refuted). |
| C201 | The resin at the inlet forgets how it was loaded and comes to equilibrium with the water | proved | `Props_Approach.v`, `Props_OnePoint.v`, `Props_PoreExhaust.v` | C201_inlet_forgets (any influent history; the rate and the constant are given before the history and the starts), C201_inlet_exhausts (constant influent; the limit is in_equilibrium with it and of the capacity) on two points; C201_one_point_forgets, C201_one_point_exhausts on one point, with any diffusion coefficients; C201_pore_exhausts on two points of the pore model with pore diffusion faster than surface diffusion, for constant water with some of every ion. That the beads stay at capacity, with presaturant and without negative loadings, is C196_column_two_points_partial and C196_column_one_point_partial and not assumed along the run. Below the inlet the liquid is not the influent and the statement is not made. |
| C202 | Errors of the influent do not build up in the resin at the inlet | proved | `Props_Measured.v`, `Props_Near.v`, `Props_Track.v` | C202_inlet_tracks on two radial points, C202_one_point_tracks on one point with any diffusion coefficients; A, B and G are given before the histories, the starts and the span of time. C202_inlet_table and C202_one_point_table: two influent tables read by the solver's interpolation whose rows differ by at most eps. C202_inlet_near_equilibrium and C202_one_point_near_equilibrium: fed water within eps of a composition that carries presaturant, the beads come within a constant times eps of equilibrium with it. At the inlet only: below it the liquid is a state of its own. |
| C203 | Water that repeats itself makes the resin at the inlet repeat itself | proved | `Props_Repeat.v` | C203_inlet_repeats on two radial points, C203_one_point_repeats on one point with any diffusion coefficients; eps = 0 is an exactly periodic influent. At the inlet only. |
| C204 | At the inlet of a carbon bed more in the water means more on the carbon, and errors of the influent grow no faster than they are fed | proved | `Props_Grain.v`, `Props_GrainCap.v`, `Props_GrainFill.v`, `Props_GrainFull.v` | C204_more_in_more_on (order), C204_grains_stay_near (bound; eps = 0: never further apart), C204_never_above_equilibrium (the highest influent bounds the loading), C204_fresh_grains_only_fill (loading never falls under a constant influent), C204_fresh_grains_fill_up (and reaches equilibrium; such runs exist by C168_one_compound_bed_lasts), C204_spent_grains_only_empty (and never rises from equilibrium with stronger water). Influents compared at whole minutes, which is where the solver tabulates them. At the inlet, where the liquid is the influent; one compound, since with several more of one can displace another. |
