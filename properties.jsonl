{"id": "C01", "title": "Simple unit conversions form a consistent system", "statement": "For length, volume, time, area, weight and concentration units of an ion-exchange parameter sheet: converting a unit to itself leaves the value unchanged, converting a to b and back restores it, and converting a to b to c equals converting a to c.", "quantifier": "every accepted input/output unit of every simple conversion, every (non-zero) molecular weight and valence", "why_tests_cant": "There are hundreds of unit triples and the concentration factors depend on real-valued molecular weight and valence, so examples cannot cover them", "anchors": ["IonExchangeModel/ixpy/paramsheets.py: conv_units, conv_length, conv_volume, conv_time, conv_area, conv_weight, conv_conc"]}
{"id": "C02", "title": "Conversion factors agree with the physical definition of the units", "statement": "The factor returned for any accepted pair of units is the ratio of the two units' physical sizes (SI definitions), up to the rounding of the published constants (relative error below 2e-5); different spellings of the same unit give identical factors.", "quantifier": "every pair of accepted units, every molecular weight and valence", "why_tests_cant": "A test samples a few pairs; the claim is about every pair and about real parameters", "anchors": ["IonExchangeModel/ixpy/paramsheets.py: conv_length, conv_volume, conv_time, conv_area, conv_weight, conv_conc"]}
{"id": "C03", "title": "An unknown unit never yields a conversion factor silently", "statement": "If the requested output unit is not accepted the program exits; if the supplied input unit is not accepted the user is asked again until an accepted unit is typed, and the factor used is the one of the first accepted answer.", "quantifier": "every string given as a unit and every finite sequence of answers typed at the prompt", "why_tests_cant": "The set of strings and of answer histories is infinite", "anchors": ["IonExchangeModel/ixpy/paramsheets.py: conv_units"]}
{"id": "C04", "title": "Compound units convert as quotients of their parts", "statement": "For flow rate, velocity, density, diffusivity and resin capacity the factor equals the numerator's factor divided by the denominator's factor, it is the identity on equal units, reciprocal on swapped units and it composes.", "quantifier": "every pair of compound units made of accepted parts, every molecular weight and valence", "why_tests_cant": "Product of several unit tables with real parameters: not enumerable by tests", "anchors": ["IonExchangeModel/ixpy/paramsheets.py: conv_vol_per_time, conv_vel, conv_dens, conv_area_per_time, conv_capacity_mass, conv_capacity_vol"]}
{"id": "C05", "title": "Parameters do not depend on the units they are written in", "statement": "Two parameter sheets that describe the same physical values in different accepted units are converted to the same solver parameters.", "quantifier": "every sheet of column or batch parameters, every choice of accepted units for each row", "why_tests_cant": "Infinitely many sheets; unit choices multiply per row", "anchors": ["IonExchangeModel/ixpy/paramsheets.py: conv_params_data, conv_params"]}
{"id": "C06", "title": "Flow rate and diameter become a superficial velocity", "statement": "When a sheet gives a flow rate and a bed diameter but no velocity, the velocity used is flow divided by the bed cross-section; when a velocity is given it is used unchanged whatever the flow rate says.", "quantifier": "every positive diameter, every flow rate, every accepted unit", "why_tests_cant": "Real-valued inputs and all unit combinations", "anchors": ["IonExchangeModel/ixpy/paramsheets.py: conv_params_data, conv_fr_to_vel"]}
{"id": "C07", "title": "Resin capacity is independent of how it is specified", "statement": "A resin capacity given per resin volume (Q), per filter volume (Qf) or per mass (Qm with bead density) reaches the solver as the same capacity per resin volume; if both Qm and Qf are given, Qm wins; if neither is complete the load fails rather than continuing.", "quantifier": "every porosity in (0,1), density and capacity", "why_tests_cant": "Real-valued parameters; interaction of three input styles", "anchors": ["IonExchangeModel/ixpy/paramsheets.py: Q_calc, conv_params_data", "IonExchangeModel/ixpy/hsdmix.py: HSDMIX.load_data"]}
{"id": "C08", "title": "Saved concentrations are expressed back in the user's units", "statement": "Influent concentrations converted to the solver's meq/L on load and converted back on save are unchanged when no other unit is asked for; when a unit is asked for, the values are those of that unit.", "quantifier": "every ion table (names, units, molecular weights, valences) and every concentration table", "why_tests_cant": "All tables and real parameters", "anchors": ["IonExchangeModel/ixpy/paramsheets.py: conv_database", "IonExchangeModel/ixpy/hsdmix.py: load_data, save_results"]}
{"id": "C09", "title": "Alkalinity is speciated into bicarbonate conservatively", "statement": "When alkalinity and pH are given, the bicarbonate used by the solver (in meq/L) is the fraction alpha(pH) of the alkalinity (in meq/L), with alpha strictly between 0 and 1 and given by the carbonate equilibrium; alkalinity and pH columns disappear and every other column is untouched.", "quantifier": "every pH, alkalinity series, units and ion table", "why_tests_cant": "pH is a real parameter; the tables are unbounded", "anchors": ["IonExchangeModel/ixpy/hsdmix.py: HSDMIX.load_data"]}
{"id": "C10", "title": "Valences used by the solver are those of the ions it solves for", "statement": "After loading, the i-th valence used in the equilibrium calculation is the valence of the i-th solved ion.", "quantifier": "every ion table, with or without alkalinity", "why_tests_cant": "Depends on the order and content of an arbitrary table", "anchors": ["IonExchangeModel/ixpy/hsdmix.py: load_data (self.valences, self.names)"]}
{"id": "C11", "title": "Mass-transfer coefficients given in the parameter sheet are converted to solver units", "statement": "When kL or Ds (Dp) is given in the parameter sheet and not per ion, the value used by the solver is that parameter expressed in cm/s (cm2/s), whatever unit it was written in.", "quantifier": "every value and accepted unit", "why_tests_cant": "Unit choice times real values", "anchors": ["IonExchangeModel/ixpy/hsdmix.py: load_data (ions kL/Ds/Dp), solve"]}
{"id": "C12", "title": "Monovalent equilibrium obeys the separation-factor law and electroneutrality", "statement": "The liquid concentrations in equilibrium with a resin composition sum to the total liquid concentration and satisfy q_i C_j = alpha_ij q_j C_i for all pairs of ions.", "quantifier": "every number of ions, every positive resin composition, positive selectivities and total concentration", "why_tests_cant": "Real-valued, any number of ions", "anchors": ["IonExchangeModel/ixpy/hsdmix.py: calc_Ceq_mv", "IonExchangeModel/ixpy/psdmix.py: calc_Ceq_mv", "IonExchangeModel/ixpy/hsdmixbatch.py: calc_Ceq_mv"]}
{"id": "C13", "title": "Mixed mono/divalent equilibrium obeys mass action and electroneutrality", "statement": "The liquid concentrations in equilibrium with a resin composition are positive, sum to the total liquid concentration, and satisfy the mass-action law C_i = (q_i/K_i)(C_p/q_p)^z_i against the presaturant, for valences 1 and 2, including when no divalent is on the resin.", "quantifier": "every number of ions, valences in {1,2}, every composition with presaturant present, every total", "why_tests_cant": "Real-valued, any number of ions; the quadratic's degenerate case is measure zero", "anchors": ["IonExchangeModel/ixpy/hsdmix.py: calc_Ceq_dv", "IonExchangeModel/ixpy/psdmix.py: calc_Ceq_dv", "IonExchangeModel/ixpy/hsdmixbatch.py: calc_Ceq_dv"]}
{"id": "C14", "title": "The resin stays electrically neutral", "statement": "The summed rate of change of all ions in the resin is zero at every bead position and every bed depth; hence along any trajectory of the model the total resin loading stays equal to the capacity Q.", "quantifier": "every state, time, ion table, number of radial and axial points; every solution trajectory", "why_tests_cant": "Unbounded state space and trajectories", "anchors": ["IonExchangeModel/ixpy/hsdmix.py: diffun", "IonExchangeModel/ixpy/psdmix.py: diffun"]}
{"id": "C15", "title": "Exchange does not change the total liquid concentration", "statement": "The film fluxes of all ions sum to zero, so the total liquid concentration changes only by advection; with a uniform total it does not change at all.", "quantifier": "every state and parameter set, any numbers of ions and grid points", "why_tests_cant": "Unbounded state space", "anchors": ["IonExchangeModel/ixpy/hsdmix.py: diffun", "IonExchangeModel/ixpy/psdmix.py: diffun"]}
{"id": "C16", "title": "Each bead gains exactly what crosses its surface", "statement": "For each ion and depth the quadrature-weighted rate of change over the bead equals the film flux through its surface, so that what the liquid loses by exchange the resin gains.", "quantifier": "every state, parameter set, any numbers of ions and grid points", "why_tests_cant": "Unbounded state space", "anchors": ["IonExchangeModel/ixpy/hsdmix.py: diffun", "IonExchangeModel/ixpy/psdmix.py: diffun"]}
{"id": "C17", "title": "Batch reactors conserve every ion", "statement": "In a batch run the amount of each ion in the liquid plus that in the resin never changes along any trajectory of the model.", "quantifier": "every initial state, liquid and resin volume, ion table, radial grid; every trajectory", "why_tests_cant": "All trajectories of an ODE system", "anchors": ["IonExchangeModel/ixpy/hsdmixbatch.py: diffun", "IonExchangeModel/ixpy/psdmixbatch.py: diffun"]}
{"id": "C18", "title": "A column at equilibrium with its influent stays there", "statement": "If the influent is constant, every bead is uniform and in equilibrium with the influent and the liquid equals the influent everywhere, nothing changes.", "quantifier": "every composition, parameter set and grid", "why_tests_cant": "Real-valued states, any size", "anchors": ["IonExchangeModel/ixpy/hsdmix.py: diffun", "IonExchangeModel/ixpy/psdmix.py: diffun", "IonExchangeModel/ixpy/colloc.py: advect_operator, recur_colloc, recur_colloc_symm"]}
{"id": "C19", "title": "A run starts from a presaturated, electroneutral bed", "statement": "Without an initial distribution the liquid behind the inlet and the resin hold only the presaturant, the resin total is Q, the liquid total is the influent total at every depth, and the inlet carries the influent; with a supplied distribution everything except the inlet is taken from it.", "quantifier": "every influent, Q and grid size; every supplied distribution", "why_tests_cant": "Any grid size and real values", "anchors": ["IonExchangeModel/ixpy/hsdmix.py: solve (initialisation)", "IonExchangeModel/ixpy/psdmix.py: solve", "IonExchangeModel/ixpy/hsdmixbatch.py: solve"]}
{"id": "C20", "title": "The influent seen by the model is the piecewise-linear curve through the data", "statement": "At every time inside the data range the influent equals the data at data points, lies between neighbouring data elsewhere, and does not depend on whether times are written in hours or days.", "quantifier": "every influent table with increasing times, every time", "why_tests_cant": "Continuous time and arbitrary tables", "anchors": ["IonExchangeModel/ixpy/hsdmix.py: get_Cin, solve", "IonExchangeModel/ixpy/psdmix.py: get_Cin"]}
{"id": "C21", "title": "The declared Jacobian sparsity of the ion-exchange column covers every real dependency", "statement": "Changing a state entry that the sparsity pattern declares irrelevant for an equation never changes that equation's derivative.", "quantifier": "every number of radial points, ions and axial points; every pair of states", "why_tests_cant": "The pattern and dependencies scale with the grid; states are real", "anchors": ["IonExchangeModel/ixpy/hsdmix.py: approx_Jac_struc, diffun", "IonExchangeModel/ixpy/psdmix.py: approx_Jac_struc, diffun"]}
{"id": "C22", "title": "The declared Jacobian sparsity of the GAC column covers every real dependency", "statement": "Same as C21 for the granular-carbon solver, single and multi-component.", "quantifier": "every number of components, radial and axial points; every pair of states", "why_tests_cant": "The pattern and dependencies scale with the grid; states are real", "anchors": ["PSDM/psdm/PSDM_functions.py: spar_Jac", "PSDM/psdm/PSDM.py: run_psdm diffun"]}
{"id": "C23", "title": "Axial collocation differentiates polynomials exactly", "statement": "For any distinct grid points the first- and second-derivative matrices return the exact derivatives at every grid point of any polynomial of degree less than the number of points; in particular a constant profile has zero derivative.", "quantifier": "every number of points, every set of distinct points, every polynomial of admissible degree", "why_tests_cant": "Unbounded sizes and real coefficients", "anchors": ["IonExchangeModel/ixpy/colloc.py: recur, calc_px_column, recur_colloc"]}
{"id": "C24", "title": "Radial collocation applies the sheet/cylinder/sphere Laplacian exactly", "statement": "For any even polynomial of admissible degree the gradient and Laplacian matrices return the exact gradient and a-dimensional radial Laplacian at every radial point.", "quantifier": "every number of points, distinct squared radii, geometry a, every even polynomial", "why_tests_cant": "Unbounded sizes and real coefficients", "anchors": ["IonExchangeModel/ixpy/colloc.py: recur_colloc_symm", "Shiny-PAC/PAC.py: recur_colloc_symm"]}
{"id": "C25", "title": "Radial quadrature weights are positive and integrate constants exactly", "statement": "The weights are all positive and sum to 1/a, so that the bead average of a constant is that constant.", "quantifier": "every number of points and distinct positive squared radii, every geometry", "why_tests_cant": "Unbounded sizes", "anchors": ["IonExchangeModel/ixpy/colloc.py: recur_colloc_symm"]}
{"id": "C26", "title": "Axial finite-element advection is consistent", "statement": "The finite-element advection operator has as many points as announced, its grid runs strictly increasingly from 0 to 1, its inlet row is zero, it annihilates constant profiles and differentiates any profile that is a polynomial of degree below the points per element exactly at every other point.", "quantifier": "every number of elements and points per element", "why_tests_cant": "Unbounded sizes", "anchors": ["IonExchangeModel/ixpy/colloc.py: advect_operator"]}
{"id": "C27", "title": "Ion-exchange uncertainty bands contain every simulated case", "statement": "For every ion and reporting time the upper (lower) band is the maximum (minimum) over the base case and all perturbed cases, whatever the order of the cases.", "quantifier": "every list of requested perturbations and every solver outcome", "why_tests_cant": "Any number and order of simulations, any real results", "anchors": ["IonExchangeModel/ixpy/hsdmix.py: model_uncertainty", "IonExchangeModel/ixpy/psdmix.py: model_uncertainty_PSDM"]}
{"id": "C28", "title": "Every requested uncertainty changes the quantity it names", "statement": "Requesting an uncertainty on a parameter simulates the column with that parameter, as used by the solver, multiplied by 1+p/100 and by 1-p/100 and all others unchanged.", "quantifier": "every parameter set and percentage, every parameter name offered", "why_tests_cant": "Real-valued parameters and every column", "anchors": ["IonExchangeModel/ixpy/hsdmix.py: model_uncertainty", "IonExchangeModel/ixpy/psdmix.py: model_uncertainty_PSDM"]}
{"id": "C29", "title": "Estimating uncertainty leaves the user's column object as it was", "statement": "After an uncertainty run the caller's column describes the same influent, parameters and ions as before.", "quantifier": "every column object, time unit and request", "why_tests_cant": "All objects and request histories", "anchors": ["IonExchangeModel/ixpy/hsdmix.py: model_uncertainty"]}
{"id": "C30", "title": "Reported times are the simulated times in the requested period", "statement": "The time index saved with the results is the simulated time in the requested period unit, or the number of bed volumes (elapsed time over bed length / velocity) when bed volumes are requested.", "quantifier": "every time series, every period unit, positive length and velocity", "why_tests_cant": "Real values", "anchors": ["IonExchangeModel/ixpy/hsdmix.py: save_results"]}
{"id": "C31", "title": "Simulated effluents are reported in the units of the influent", "statement": "The dataframe converter turns solver concentrations into the ion's input unit, i.e. it inverts the conversion applied on load, for every accepted unit and valence.", "quantifier": "every ion table and concentration", "why_tests_cant": "Real values, all units and valences", "anchors": ["IonExchangeModel/ixpy/converter.py: conv_iex_u", "PSDM/psdm/lead_lag_class.py: conv_iex_u", "IonExchangeModel/ixpy/paramsheets.py: conv_conc"]}
{"id": "C32", "title": "GAC input-file unit conversion is consistent", "statement": "For every accepted unit spelling of radius, length, flow, diameter, weight, density and time in a GAC column sheet, the value stored is the physical value in the solver's unit; an unknown unit is never converted.", "quantifier": "every value and unit string", "why_tests_cant": "Real values, any string", "anchors": ["PSDM/psdm/PSDM_functions.py: process_input_file", "PSDM/psdm/PSDM.py: __init__"]}
{"id": "C33", "title": "Derived GAC column quantities are mutually consistent", "statement": "Bed volume, porosity, empty-bed contact time, residence time and velocity derived from the sheet satisfy their defining relations, and the bed porosity lies strictly between 0 and 1 exactly when the carbon fits in the bed.", "quantifier": "every positive geometry, flow, density and weight", "why_tests_cant": "Real-valued inputs", "anchors": ["PSDM/psdm/PSDM.py: __init__"]}
{"id": "C34", "title": "Fouling never increases capacity with time", "statement": "The capacity multiplier applied by the fouling correlations starts at 1 on clean carbon, never increases with time and stays positive.", "quantifier": "every water type, chemical type and time", "why_tests_cant": "Continuous time", "anchors": ["PSDM/psdm/PSDM_functions.py: foul_params, fouling_k", "PSDM/psdm/PSDM.py: __get_fouling_params, __fouled_k_new"]}
{"id": "C35", "title": "Tortuosity is at least one and never decreases", "statement": "The time-dependent tortuosity is 1 initially, is never below 1, never decreases with time, and its scalar and array versions agree.", "quantifier": "every time", "why_tests_cant": "Continuous time", "anchors": ["PSDM/psdm/PSDM_functions.py: tortuosity"]}
{"id": "C36", "title": "Changing K or 1/n at fixed loading preserves the loading", "statement": "Recalculating the Freundlich K for another exponent preserves the equilibrium loading q = K C^(1/n) at the reference concentration, and successive recalculations compose.", "quantifier": "every K, loading, positive concentration and exponent", "why_tests_cant": "Real-valued", "anchors": ["PSDM/psdm/PSDM_functions.py: recalc_k"]}
{"id": "C37", "title": "GAC beads gain exactly what crosses their surface", "statement": "In the GAC column model, for each compound and depth the weighted rate of change over the bead equals the film flux through its surface, and the inlet follows the influent.", "quantifier": "every state, parameter set and grid", "why_tests_cant": "Unbounded state space", "anchors": ["PSDM/psdm/PSDM.py: run_psdm diffun", "PSDM/psdm/PSDM_functions.py: calc_solver_matrix"]}
{"id": "C38", "title": "The fit returned is a grid minimum", "statement": "The best-fit lookup returns an entry of the error table that no other entry beats, with the labels of its own row and column.", "quantifier": "every error table", "why_tests_cant": "Tables of any size and contents", "anchors": ["PSDM/psdm/PSDM_functions.py: find_minimum_df"]}
{"id": "C39", "title": "Search grids contain their centre and stay inside the requested band", "statement": "The generated search grid of K and 1/n has the requested number of points, is increasing and spans the requested band around the centre.", "quantifier": "every centre, band and number of points", "why_tests_cant": "Real parameters, any size", "anchors": ["PSDM/psdm/PSDM_functions.py: generate_grid"]}
{"id": "C40", "title": "The stepwise fit search is bounded and keeps the best point it saw", "statement": "The stepwise search stops after at most the configured number of passes of at most five simulations each (plus six to start), never leaves its grid, never evaluates a point twice, and reports the least error among the points evaluated.", "quantifier": "every error function, grid and start", "why_tests_cant": "Arbitrary error landscapes", "anchors": ["PSDM/psdm/PSDM.py: run_all_smart"]}
{"id": "C41", "title": "Fitting several compounds keeps every compound's fit", "statement": "After fitting all compounds, the stored isotherm table holds for each compound the best fit found for that compound.", "quantifier": "every set of compounds and every error landscape, in any order", "why_tests_cant": "Any number of compounds and histories", "anchors": ["PSDM/psdm/PSDM.py: run_all, run_all_MP, run_all_smart, run_psdm_kfit, __reset_column_values"]}
{"id": "C42", "title": "Running a simulation leaves the GAC column's inputs as they were", "statement": "A fit or an uncertainty run restores the column's flow, influent, isotherm data and mass-transfer values.", "quantifier": "every column object and any sequence of runs", "why_tests_cant": "Histories of any length", "anchors": ["PSDM/psdm/PSDM.py: __set_backups, __reset_column_values, run_psdm_kfit, model_uncertainty"]}
{"id": "C43", "title": "GAC uncertainty bands contain every simulated case", "statement": "For each compound and time the upper (lower) band is the maximum (minimum) of the base case and all perturbed cases, and each requested perturbation changes the parameter it names.", "quantifier": "every request and simulator outcome", "why_tests_cant": "Any number of cases and real results", "anchors": ["PSDM/psdm/PSDM.py: model_uncertainty"]}
{"id": "C44", "title": "Supplied mass-transfer coefficients override correlations only when positive", "statement": "A user-supplied kf, Dp or Ds replaces the correlation's value exactly when it is positive; otherwise the correlation is used.", "quantifier": "every table of overrides", "why_tests_cant": "Arbitrary tables", "anchors": ["PSDM/psdm/PSDM.py: __init__ (mass_transfer), run_psdm"]}
{"id": "C45", "title": "Film-transfer correlations are positive and increase with velocity", "statement": "For positive physical inputs the film-transfer and diffusivity correlations return positive values which do not decrease with flow velocity.", "quantifier": "every positive input", "why_tests_cant": "Real-valued", "anchors": ["PSDM/psdm/PSDM_functions.py: gnielinski, ohashi, kf_calc", "IonExchangeModel/ixpy/KL_guess.py"]}
{"id": "C46", "title": "Full-scale bed rotation schedules meet the target", "statement": "The rotation interval returned keeps the blended effluent at or below the target at all times of the cycle; blending weights are positive and sum to one; for non-decreasing effluent curves no longer interval inside the search range would also comply.", "quantifier": "every effluent curve, number of beds, beds per cycle and target", "why_tests_cant": "Arbitrary curves and counts", "anchors": ["PSDM/psdm/PSDM_tools.py: predict_full_scale"]}
{"id": "C47", "title": "Replacement intervals end before the first regulatory exceedance", "statement": "The predicted interval for a compound is the last day before the first day the daily-interpolated effluent exceeds its MCL, and the hazard-index interval uses PFHxS/10 + PFNA/10 + GenX/10 + PFBS/2000.", "quantifier": "every effluent table", "why_tests_cant": "Arbitrary tables", "anchors": ["PSDM/psdm/PSDM_tools.py: calculate_replacement_interval"]}
{"id": "C48", "title": "Specific-throughput studies simulate the requested contact time", "statement": "For each requested EBCT the simulated column has exactly that EBCT and the original bed density, and the user's column specification is unchanged afterwards.", "quantifier": "every column and EBCT list", "why_tests_cant": "Real-valued", "anchors": ["PSDM/psdm/PSDM_tools.py: specific_throughput"]}
{"id": "C49", "title": "Equilibrium column model conserves mass across waves", "statement": "For every compound the wave velocities satisfy the integral mass balance of the compound over all waves, and bed volumes, usage rates and breakthrough times follow from them.", "quantifier": "every number of compounds, loadings, concentrations and flow", "why_tests_cant": "Any number of compounds", "anchors": ["PSDM/psdm/ecm.py: run_ecm"]}
{"id": "C50", "title": "Equilibrium column model treats mass and molar isotherms consistently", "statement": "A Freundlich constant given in mass units predicts, after conversion, the same loading in mass terms at every concentration; with one compound the competitive isotherm reduces to Freundlich.", "quantifier": "every K, 1/n, molecular weight and concentration", "why_tests_cant": "Real-valued", "anchors": ["PSDM/psdm/ecm.py: _process_input_file, _fcn2"]}
{"id": "C51", "title": "Small-column scaling preserves the scaling laws", "statement": "RSSCT designs scale EBCT and duration by the (2-x) power of the particle ratio, preserve velocity times particle size, and are geometrically consistent (volume, flow, mass, water volume).", "quantifier": "every large column, particle size and x", "why_tests_cant": "Real-valued", "anchors": ["PSDM/psdm/PSDM_extra.py: calc_RSSCT_specs, build_large_scale_column"]}
{"id": "C52", "title": "Small-column designs do not depend on the unit of the particle diameter", "statement": "Giving the same particle diameter as a number in mm or with an explicit unit yields the same RSSCT design.", "quantifier": "every diameter and unit", "why_tests_cant": "Real-valued", "anchors": ["PSDM/psdm/PSDM_extra.py: calc_RSSCT_specs, build_large_scale_column"]}
{"id": "C53", "title": "Lead-lag operation feeds each lag vessel with the lead vessel's effluent", "statement": "In lead-lag simulation, during the first half the vessel sees the previous cycle's lead effluent and afterwards the raw influent, and the reported effluent and mid-point series are the two halves of the last cycle.", "quantifier": "every swap interval, number of loops and vessel response", "why_tests_cant": "Any number of cycles and any response", "anchors": ["PSDM/psdm/lead_lag_class.py: run_LL_gac, run_LL_ix"]}
{"id": "C54", "title": "Lead-lag configuration names select the right vessels", "statement": "Every documented configuration name runs the vessels in the named order; any other name is refused.", "quantifier": "every string", "why_tests_cant": "Any string", "anchors": ["PSDM/psdm/lead_lag_class.py: run_LL"]}
{"id": "C55", "title": "PAC contactor model conserves adsorbate", "statement": "The change in liquid concentration plus the change in carbon loading of each compound is zero along any trajectory of the PAC model.", "quantifier": "every state, parameters and radial grid; every trajectory", "why_tests_cant": "All trajectories", "anchors": ["Shiny-PAC/PAC.py: run_PAC_PSDM diffun"]}
{"id": "C56", "title": "PAC dose studies leave the contactor as it was", "statement": "After a multi-dose or HRT study the contactor's dose, duration, compounds and every value derived from the dose are what they were before.", "quantifier": "every contactor, list of doses and study sequence", "why_tests_cant": "Histories of any length", "anchors": ["Shiny-PAC/PAC.py: run_multi_dosage, HRT_calculator_for_dosage, _R_HRT_calculator_for_dosage, _update_values"]}
{"id": "C57", "title": "PAC contactor geometry is consistent", "statement": "However the contactor is described (dimensions or volume), length, width, height and volume satisfy the shape's volume relation.", "quantifier": "every shape and positive dimensions, every unit", "why_tests_cant": "Real-valued; several input styles", "anchors": ["Shiny-PAC/PAC.py: PAC_CFPSDM.__init__"]}
{"id": "C58", "title": "PAC concentrations are reported in one unit", "statement": "Compound concentrations are converted to ug/L with the compound's own unit; results do not depend on the unit chosen for the influent.", "quantifier": "every compound table and unit", "why_tests_cant": "Real values", "anchors": ["Shiny-PAC/PAC.py: conc_convert, convert_array, R_run_PAC"]}
{"id": "C59", "title": "The solver's internal time scale does not affect results", "statement": "Simulated histories, the end of the run and the reported times, read in seconds, do not depend on the scale the column solver uses to make time dimensionless.", "quantifier": "every column, positive scale, influent and solution history", "why_tests_cant": "Continuous time, all histories", "anchors": ["IonExchangeModel/ixpy/hsdmix.py: HSDMIX.solve, diffun", "IonExchangeModel/ixpy/psdmix.py: PSDMIX.solve, diffun"]}
{"id": "C60", "title": "Batch resin volume follows from resin mass, water content and density", "statement": "A batch sheet without a flow or velocity yields a resin volume in litres equal to the dry mass in grams divided by the density in g/mL and by 1000, whatever the units the mass and density are written in.", "quantifier": "every sheet that converts, every mass, density and water content, every accepted unit", "why_tests_cant": "Real values and unit strings", "anchors": ["IonExchangeModel/ixpy/paramsheets.py: conv_params_data"]}
{"id": "C61", "title": "Ions diffuse inside the beads by Fick's law with their own coefficients", "statement": "At every interior radius the rate of change of each non-presaturant ion is its surface diffusivity times the spherical Laplacian of its loading profile over the bead radius squared; with pores, pore diffusion of the equilibrium liquid is added with weight porosity.", "quantifier": "every state, ion, depth and grid size", "why_tests_cant": "Unbounded state space and grids", "anchors": ["IonExchangeModel/ixpy/hsdmix.py: HSDMIX.solve diffun", "IonExchangeModel/ixpy/psdmix.py: PSDMIX.solve diffun", "IonExchangeModel/ixpy/colloc.py: build_collocation"]}
{"id": "C62", "title": "Liquid is carried through the bed at the superficial velocity", "statement": "A liquid profile linear in depth is advected at the superficial velocity: liquid plus bead content of a slice changes by minus velocity times slope.", "quantifier": "every slope, state, grid size and both axial discretisations", "why_tests_cant": "Unbounded state space and grids", "anchors": ["IonExchangeModel/ixpy/hsdmix.py: HSDMIX.solve diffun", "IonExchangeModel/ixpy/psdmix.py: PSDMIX.solve diffun", "IonExchangeModel/ixpy/colloc.py: advect_operator"]}
{"id": "C63", "title": "A batch keeps its total liquid concentration and resin capacity", "statement": "From the start the code makes, with a monovalent presaturant, the liquid total stays the initial total and the resin total stays Q at every radius for the whole run.", "quantifier": "every ion table, grid size and trajectory along which the exchange equilibria have solutions", "why_tests_cant": "All trajectories", "anchors": ["IonExchangeModel/ixpy/hsdmixbatch.py: diffun, calc_Ceq_dv, calc_Ceq_mv", "IonExchangeModel/ixpy/psdmixbatch.py: diffun"]}
{"id": "C64", "title": "A batch at equilibrium stays there and otherwise moves towards it", "statement": "When the beads are uniform and in equilibrium with the liquid nothing changes; otherwise each ion's liquid concentration moves towards the concentration in equilibrium with the bead surface.", "quantifier": "every state, ion table and grid size", "why_tests_cant": "Unbounded state space", "anchors": ["IonExchangeModel/ixpy/hsdmixbatch.py: diffun", "IonExchangeModel/ixpy/psdmixbatch.py: diffun"]}
{"id": "C65", "title": "An uncertainty estimate works for every influent the column itself can run", "statement": "If the column can be simulated, an uncertainty estimate with a valid request can too: the reporting times it chooses lie inside the influent record whatever the record's time unit and length.", "quantifier": "every influent record, time unit and length", "why_tests_cant": "Continuous durations, all time units", "anchors": ["IonExchangeModel/ixpy/hsdmix.py: model_uncertainty", "IonExchangeModel/ixpy/psdmix.py: model_uncertainty_PSDM"]}
{"id": "C66", "title": "A GAC sheet with an unrecognised unit is refused, not silently replaced", "statement": "A column sheet whose unit cell is empty or names a unit the reader does not know is refused with an error instead of being read with some other unit or value.", "quantifier": "every sheet and unit string", "why_tests_cant": "Any string in any row", "anchors": ["PSDM/psdm/PSDM_functions.py: process_input_file"]}
{"id": "C67", "title": "Water properties are physical and shared by both packages", "statement": "Between 0 and 100 C the water correlations give a density near 1 g/mL and a viscosity that decreases with temperature, so solutes diffuse faster in warmer water; the carbon and ion-exchange packages estimate the same liquid diffusivity for the same solute and temperature.", "quantifier": "every temperature from 0 to 100 C, every molar volume", "why_tests_cant": "Continuous temperature", "anchors": ["PSDM/psdm/PSDM_functions.py: viscosity, density", "PSDM/psdm/PSDM.py: run_psdm (difl)", "IonExchangeModel/ixpy/KL_guess.py: viscosity, density, Hayduk_Laudie, Wilke_Chang"]}
{"id": "C68", "title": "GAC collocation matrices are exact", "statement": "The axial matrix differentiates exactly every profile that is polynomial of degree below the point count on each element with matching slopes; the radial matrix gives the exact spherical Laplacian and the weights the exact integral of every even polynomial of degree below twice the radial point count; the surface weight is positive.", "quantifier": "every grid size and number of elements, every polynomial", "why_tests_cant": "Any size, all polynomials", "anchors": ["PSDM/psdm/PSDM_functions.py: calc_solver_matrix"]}
{"id": "C69", "title": "GAC mass transfer happens at the stated coefficients", "statement": "Beads take up solute at film coefficient times outer bead area times concentration difference, and inside the bead solute moves by pore diffusion of the pore liquid and surface diffusion of the adsorbed amount with the coefficients reported.", "quantifier": "every state, column, compound and depth", "why_tests_cant": "Unbounded state space and grids", "anchors": ["PSDM/psdm/PSDM.py: run_psdm diffun"]}
{"id": "C70", "title": "The GAC column conserves mass", "statement": "At every depth after the inlet the liquid and bead content of each compound together change only by advection at the interstitial velocity; along any trajectory the content follows exactly that balance.", "quantifier": "every state and trajectory, grid size, column and compound", "why_tests_cant": "All trajectories", "anchors": ["PSDM/psdm/PSDM.py: run_psdm diffun", "PSDM/psdm/PSDM_functions.py: calc_solver_matrix"]}
{"id": "C71", "title": "GAC equilibrium is ideal adsorbed solution theory", "statement": "The pore liquid is in ideal-adsorbed-solution equilibrium with the local loading under the compounds' fouled Freundlich isotherms; with one compound it is the Freundlich isotherm in the units of the isotherm table.", "quantifier": "every number of compounds, loading and isotherm parameters", "why_tests_cant": "Any number of compounds, real values", "anchors": ["PSDM/psdm/PSDM.py: run_psdm diffun"]}
{"id": "C72", "title": "A GAC column in equilibrium with its influent stays there", "statement": "If beads are uniform, their pore liquid equals the influent and the liquid everywhere is the influent, nothing changes.", "quantifier": "every such state, grid size and column", "why_tests_cant": "Unbounded state space", "anchors": ["PSDM/psdm/PSDM.py: run_psdm diffun"]}
{"id": "C73", "title": "GAC effluent is reported at the outlet in influent units", "statement": "The reported series is the liquid at the last depth, never negative, in the units of the influent sheet: complete breakthrough is reported as the influent.", "quantifier": "every column, compound, influent table and state", "why_tests_cant": "Real values, any size", "anchors": ["PSDM/psdm/PSDM.py: run_psdm"]}
{"id": "C74", "title": "The stepwise fit search ends at a local minimum", "statement": "Unless the pass limit is reached, the stepwise search ends at a point whose grid neighbours were all simulated and none of which is better by more than 1e-7.", "quantifier": "every error function, grid and start", "why_tests_cant": "Arbitrary error landscapes", "anchors": ["PSDM/psdm/PSDM.py: run_all_smart"]}
{"id": "C75", "title": "The grid fit stores the best point of its grid", "statement": "After a grid fit of one compound the stored K and 1/n are a pair that was simulated, and in the exhaustive mode the pair with the least error of the grid.", "quantifier": "every error function, grid, number of compounds and refinement rounds", "why_tests_cant": "Arbitrary error landscapes and grids", "anchors": ["PSDM/psdm/PSDM.py: run_all, run_all_MP, run_psdm_kfit", "PSDM/psdm/PSDM_functions.py: generate_grid, find_minimum_df, recalc_k"]}
{"id": "C76", "title": "The surface-diffusion fit returns the best diffusivity it tried", "statement": "A surface-diffusion fit of a compound returns, among the multiples of the correlation value it tried, one whose simulation has the least error against the effluent data, and works for every column that can be simulated.", "quantifier": "all columns, compounds, lists of factors and simulators", "why_tests_cant": "the least error depends on the landscape of every simulation; tests try one data set", "anchors": ["PSDM/psdm/PSDM.py: run_psdm_dsfit"]}
{"id": "C77", "title": "Bounds on replacement intervals are ordered", "statement": "With an uncertainty frame around the results, the reported lower bound of each replacement interval is at most the predicted interval and that is at most the upper bound, an interval that never ends counting as the longest.", "quantifier": "every result frame and every lower and upper frame around it", "why_tests_cant": "Any curves and any number of days", "anchors": ["PSDM/psdm/PSDM_tools.py: calculate_replacement_interval"]}
{"id": "C78", "title": "The equilibrium column's plotted curve shows the zones", "statement": "When the fronts arrive one after the other, the plotted effluent of every compound is zero before the first front and, between two fronts, the concentration of the zone between them.", "quantifier": "every number of compounds and every time that is not the arrival of a front", "why_tests_cant": "Any number of fronts and any time", "anchors": ["PSDM/psdm/ecm.py: plot_ecm"]}
{"id": "C79", "title": "Column design units have their true size", "statement": "Lengths, flows, masses, times, filtration velocities and densities given with any accepted unit enter the column design at the true size of the unit, upper or lower case; a unit that is not accepted gives a missing value and never a wrong one.", "quantifier": "every value and every unit string", "why_tests_cant": "Every string and every real value", "anchors": ["PSDM/psdm/PSDM_extra.py: _length_convert2cm, _flrt_convert2cm3min, _mass_convert2g, _time_convert2day, build_large_scale_column"]}
{"id": "C80", "title": "Mixed lead-lag systems feed the second vessel with the first vessel's effluent", "statement": "Carbon before resin: the carbon vessel gets the raw water and the resin vessel gets its effluent, with the counterions at their means; resin before carbon: the other way round. The reported mid-point and effluent series are the effluents of the two vessels.", "quantifier": "every influent, run length, list of compounds and vessel response", "why_tests_cant": "Any response of either vessel", "anchors": ["PSDM/psdm/lead_lag_class.py: run_LL_gac_ix, run_LL_ix_gac"]}
{"id": "C81", "title": "Lead-lag runs do not depend on earlier runs", "statement": "A run on an object gives the same answer as the same run on a fresh object, whatever was run before.", "quantifier": "every history of completed runs", "why_tests_cant": "Any sequence of runs", "anchors": ["PSDM/psdm/lead_lag_class.py: run_LL"]}
{"id": "C82", "title": "Mixed lead-lag systems run both vessels at the chosen flow", "statement": "The flow argument (the carbon's, the resin's, a number, or a number with a unit) sets the flow of both vessels to the same physical flow.", "quantifier": "every flow argument and unit", "why_tests_cant": "Any unit", "anchors": ["PSDM/psdm/lead_lag_class.py: run_LL_gac_ix, run_LL_ix_gac, flow_converter"]}
{"id": "C83", "title": "Concentrations leaving a resin vessel are in the unit they entered with", "statement": "What the resin model makes of a concentration in the ion's unit is turned back into that unit: an inert vessel returns what it was fed.", "quantifier": "every ion (weight, charge, unit) and concentration", "why_tests_cant": "Any weight and charge", "anchors": ["PSDM/psdm/lead_lag_class.py: conv_iex_u", "IonExchangeModel/ixpy/hsdmix.py", "IonExchangeModel/ixpy/paramsheets.py: conv_conc"]}
{"id": "C84", "title": "The influent concentration of a PAC run enters its equations", "statement": "A run for water with k times the concentration of a compound solves the model's equations for that concentration: multiplying a solution by the influent concentration gives a solution.", "quantifier": "every compound (isotherm K, 1/n), concentration, grid and state", "why_tests_cant": "Any isotherm and state", "anchors": ["Shiny-PAC/PAC.py: run_PAC_PSDM"]}
{"id": "C85", "title": "The PAC dose is the carbon that takes up the adsorbate", "statement": "Along any run the adsorbate lost by a litre of water is the rise in carbon loading times the dose in grams per litre.", "quantifier": "every dose, carbon (density, porosity, radius), compound, grid and trajectory", "why_tests_cant": "Along all trajectories", "anchors": ["Shiny-PAC/PAC.py: _update_values (epsilon), run_PAC_PSDM"]}
{"id": "C86", "title": "Missing PAC inputs are counted", "statement": "The number of errors of a contactor built from two sheets is the number of rows it needs that the sheets do not have.", "quantifier": "every pair of sheets", "why_tests_cant": "Every combination of rows", "anchors": ["Shiny-PAC/PAC.py: PAC_CFPSDM.__init__"]}
{"id": "C87", "title": "The reported contact time of a PAC study reaches the target", "statement": "When the concentration falls with time, the reported contact time is where the computed curve, joined by straight lines, equals the target; it is the first time if the water starts at or below the target, and left blank exactly when no computed concentration is at or below it.", "quantifier": "every target, conversion and computed curve", "why_tests_cant": "Any curve and target", "anchors": ["Shiny-PAC/PAC.py: HRT_calculator_for_dosage, _R_HRT_calculator_for_dosage"]}
{"id": "C88", "title": "PAC reference curves solve their own models", "statement": "The analytical curve solves film transfer in a flow-through tank starting at the influent concentration; the film curve solves film transfer with a linear isotherm in a closed vessel, the carbon taking up what the water loses.", "quantifier": "every carbon, dose, film coefficient, partition coefficient and time", "why_tests_cant": "Real-valued, at all times", "anchors": ["Shiny-PAC/PAC.py: get_analytical_sol, helfferich_film, plot functions using F_h"]}
{"id": "C89", "title": "PAC unit names have their true sizes", "statement": "Every length, volume, time, flow and concentration unit accepted is converted with its true size, and no name is given another's.", "quantifier": "every unit name", "why_tests_cant": "A statement on all names and real factors", "anchors": ["Shiny-PAC/PAC.py: time_convert, length_convert, volume_convert, flow_convert, conc_convert"]}
{"id": "C90", "title": "A rectangular PAC contactor has the aspect ratio given", "statement": "However a rectangular contactor is described, its length over its width is the aspect ratio given.", "quantifier": "every sheet describing a rectangular contactor", "why_tests_cant": "Several input styles, real values", "anchors": ["Shiny-PAC/PAC.py: PAC_CFPSDM.__init__"]}
{"id": "C91", "title": "Measurements survive loading", "statement": "The loaded influent and effluent have one row for each recorded time and one for time zero, in increasing order, and wherever a compound was measured the loaded value is the mean of its records at that time, zero below the reporting limit (an influent zero may show as 0.001).", "quantifier": "every list of records, reporting limit, compound and time", "why_tests_cant": "Any set of records, with any pattern of missing ones", "anchors": ["PSDM/psdm/PSDM_functions.py: process_input_file"]}
{"id": "C92", "title": "Gaps between measurements are filled with straight lines", "statement": "At a positive time at which a stream was not fully measured, its value is on the straight line through the neighbouring full measurements, the first or last two being prolonged beyond the ends.", "quantifier": "every list of records, compound and positive time", "why_tests_cant": "Any pattern of gaps and real times", "anchors": ["PSDM/psdm/PSDM_functions.py: process_input_file"]}
{"id": "C93", "title": "Loaded streams have no holes and a true start", "statement": "From time zero on the loaded influent and effluent have a value at every time, and the influent at time zero is one that the records support.", "quantifier": "every list of records, compound and time", "why_tests_cant": "Any pattern of missing records", "anchors": ["PSDM/psdm/PSDM_functions.py: process_input_file"]}
{"id": "C94", "title": "The estimated K reproduces the measured loading", "statement": "The Freundlich K stored for a compound, at the stored 1/n and average influent, gives the stored loading.", "quantifier": "every record, column and outcome of the breakthrough search", "why_tests_cant": "Real data and exponents, several estimation branches", "anchors": ["PSDM/psdm/PSDM.py: PSDM.__init__, __calculate_capacity"]}
{"id": "C95", "title": "The K offered for another 1/n keeps the loading", "statement": "For every exponent from 0.15 to 1 in steps of 0.01 the K offered for it gives the same loading at the average influent.", "quantifier": "every record, column and exponent", "why_tests_cant": "A range of exponents for any data", "anchors": ["PSDM/psdm/PSDM.py: PSDM.__init__, __calculate_capacity"]}
{"id": "C96", "title": "The estimated loading is the mass taken up", "statement": "The stored loading is flow times influent less effluent, readings joined by straight lines, integrated to the breakthrough time and divided by the mass of carbon; at least 1e-6.", "quantifier": "every record, column and outcome of the search", "why_tests_cant": "An integral over arbitrary records", "anchors": ["PSDM/psdm/PSDM.py: PSDM.__init__, __calculate_capacity"]}
{"id": "C97", "title": "The breakthrough time is when effluent reaches influent", "statement": "When the effluent reaches the influent, the stored breakthrough time is the day before the first day it does (at least one).", "quantifier": "every record with a crossing", "why_tests_cant": "Any record, first day among any number", "anchors": ["PSDM/psdm/PSDM.py: PSDM.__init__, __calculate_capacity"]}
{"id": "C98", "title": "The estimated loading does not depend on the unit of time", "statement": "The same record with times in days, hours or minutes gives the same loading.", "quantifier": "every record and unit", "why_tests_cant": "All records and scalings", "anchors": ["PSDM/psdm/PSDM.py: PSDM.__init__, __calculate_capacity"]}
{"id": "C99", "title": "The estimate of fouling is the average one", "statement": "The stored fouling estimate is between the reciprocals of any bounds on the fouling factor before breakthrough, and 1.25 without any day before it.", "quantifier": "every record and fouling function", "why_tests_cant": "Any fouling function and breakthrough time", "anchors": ["PSDM/psdm/PSDM.py: PSDM.__init__, __calculate_capacity"]}
{"id": "C100", "title": "The web application uses the mass-transfer coefficients in the table", "statement": "For each compound kf, dp and ds are those of the last row with that name in upper or lower case, and zero, which means the correlation, without such a row.", "quantifier": "every table of compounds and properties", "why_tests_cant": "Any number of rows, compounds and spellings", "anchors": ["Shiny-GAC/GAC_Shiny_helper.py: run_PSDM, run_PSDM_fitter"]}
{"id": "C101", "title": "The web application keeps the user's readings", "statement": "Between time zero and the last influent reading the concentrations handed to the column model are those of the broken line through the readings.", "quantifier": "every table of readings and every time", "why_tests_cant": "All reading times and all times in between", "anchors": ["Shiny-GAC/GAC_Shiny_helper.py: run_PSDM, run_PSDM_fitter"]}
{"id": "C102", "title": "The web application shows the simulated concentrations", "statement": "The frame has the compounds in order, a row every quarter of a unit of time until just past the last reading, and each value lies on the broken line through the simulated results; the last row is the last result when the last reading is at a whole time.", "quantifier": "every input, fit, search and simulation", "why_tests_cant": "Any data, compounds and outcome of the solver", "anchors": ["Shiny-GAC/GAC_Shiny_helper.py: run_PSDM, run_PSDM_fitter"]}
{"id": "C103", "title": "A fit from the web application uses the effluent readings", "statement": "The capacities a fit starts from are estimated from the influent and effluent readings, whatever the carbon, influent and effluent are called.", "quantifier": "every input and name", "why_tests_cant": "All names and tables", "anchors": ["Shiny-GAC/GAC_Shiny_helper.py: run_PSDM_fitter", "PSDM/psdm/PSDM.py: PSDM.__init__"]}
{"id": "C104", "title": "The web application is told about problems", "statement": "A call always returns: a frame of results, the number that could not be read or the exception, never an uncaught exception.", "quantifier": "every input", "why_tests_cant": "All malformed and incomplete inputs", "anchors": ["Shiny-GAC/GAC_Shiny_helper.py: run_PSDM, run_PSDM_fitter"]}
{"id": "C105", "title": "Exact batch data give back the isotherm", "statement": "When the measurements lie exactly on a Freundlich, Langmuir or Redlich-Peterson isotherm, at enough different concentrations, the parameters returned by the isotherm fit are those of that isotherm.", "quantifier": "every isotherm, every set of measurements on it, every least-squares solver", "why_tests_cant": "Uniqueness for all parameters and measurements, needs an argument about zeros of sums of exponentials", "anchors": ["PSDM/psdm/PSDM_tools.py: isotherm_fit"]}
{"id": "C106", "title": "Each isotherm parameter is shown with its own standard error", "statement": "The frame returned by the isotherm fit and the title of its plot show every parameter with its own standard error.", "quantifier": "every data frame, isotherm and solver", "why_tests_cant": "All results of the solver", "anchors": ["PSDM/psdm/PSDM_tools.py: isotherm_fit"]}
{"id": "C107", "title": "Isotherm fits use the loadings of the given concentrations", "statement": "The loadings an isotherm is fitted to are those the current initial and final concentrations and carbon doses give, and a call leaves the frame as it was.", "quantifier": "every data frame and sequence of calls", "why_tests_cant": "Histories of calls on one frame", "anchors": ["PSDM/psdm/PSDM_tools.py: isotherm_fit"]}
{"id": "C108", "title": "Confidence and prediction bands of an isotherm fit", "statement": "The curve drawn has 30 points over exactly the measured concentrations; it is the isotherm with the parameters returned; it has bands exactly when there are more measurements than parameters, at more than one concentration, and their half widths are those of a linear regression through the measurements, so that the prediction band contains the confidence band and both widen away from the mean concentration.", "quantifier": "every data frame, isotherm, solver and Student quantile", "why_tests_cant": "All data and all points of the curve", "anchors": ["PSDM/psdm/PSDM_tools.py: isotherm_fit"]}
{"id": "C109", "title": "Names of isotherms", "statement": "The three isotherms are recognised in any case; any other name is reported to the user without an exception.", "quantifier": "every string", "why_tests_cant": "All names", "anchors": ["PSDM/psdm/PSDM_tools.py: isotherm_fit"]}
{"id": "C110", "title": "A perfect score of an equilibrium-column fit means a match", "statement": "The score minimised when fitting breakthrough days and peaks is never negative, and zero exactly when all days and all peaks are reproduced.", "quantifier": "every bed, data, weight and trial", "why_tests_cant": "All trials, a property of the score as a function", "anchors": ["PSDM/psdm/ecm.py: ecm.fit_ecm"]}
{"id": "C111", "title": "After a fit the equilibrium column has the fitted parameters", "statement": "After a fit the object has the returned K and 1/n.", "quantifier": "every sequence of trials of the optimiser", "why_tests_cant": "Depends on the optimiser's sequence of calls", "anchors": ["PSDM/psdm/ecm.py: ecm.fit_ecm, ecm.fit_ecm2"]}
{"id": "C112", "title": "The score of a fit to records uses the whole records", "statement": "The score minimised when fitting concentration records is never negative, and zero exactly when every record is met on every whole day before its end.", "quantifier": "every bed, records and trial", "why_tests_cant": "All records of all lengths", "anchors": ["PSDM/psdm/ecm.py: ecm.fit_ecm2"]}
{"id": "C113", "title": "The raw-data reader keeps what was measured", "statement": "Each loaded value is the mean of its readings, zero at or below the reporting limit, and a value that was not measured stays missing.", "quantifier": "every set of measurements and limit", "why_tests_cant": "All data", "anchors": ["PSDM/psdm/PSDM_functions.py: process_raw_data"]}
{"id": "C114", "title": "The older workbook reader agrees with the current one", "statement": "The older and the current reader of a workbook give the same table of influent and effluent values.", "quantifier": "every set of measurements, names and limit", "why_tests_cant": "All data", "anchors": ["PSDM/psdm/PSDM_functions.py: process_raw_data_new, process_input_file"]}
{"id": "C115", "title": "Selecting compounds keeps their columns", "statement": "Filtering a table of measurements by compounds keeps exactly the columns of those compounds for the carbon and the influent, with their values, and fails only when none is left.", "quantifier": "every table and selection", "why_tests_cant": "All tables", "anchors": ["PSDM/psdm/PSDM_functions.py: filter_compounds"]}
{"id": "C116", "title": "The finite-difference Jacobian is the Jacobian", "statement": "It is exact for affine right-hand sides whatever the step, tends to the derivative for differentiable ones, is zero where there is no dependence, and for the carbon column is covered by the declared sparsity.", "quantifier": "every right-hand side, state and step", "why_tests_cant": "All functions, a limit statement", "anchors": ["PSDM/psdm/PSDM_functions.py: calc_Jac, spar_Jac"]}
{"id": "C117", "title": "A full-scale prediction leaves the column as it was", "statement": "After a full-scale prediction, successful or not, the column object and the caller's data are as before.", "quantifier": "every column, compounds and behaviour of the runs", "why_tests_cant": "All failures and data lengths", "anchors": ["PSDM/psdm/PSDM_tools.py: predict_full_scale, predict_full_scale_ds"]}
{"id": "C118", "title": "Analysing all compounds stores every fit", "statement": "After analysing all compounds each has the values its own fit gave, and everything else is unchanged, with the grid search on or off.", "quantifier": "every column and fit results", "why_tests_cant": "All columns and settings", "anchors": ["PSDM/psdm/PSDM_tools.py: analyze_all, analyze_all_ds"]}
{"id": "C119", "title": "A batch reactor's results are in the requested units", "statement": "The tank starts with the sheet's concentrations converted to equivalents. The saved results have times and concentrations in the requested units (by default hours and the sheet's own units), labelled with them, and their first row is the sheet's concentrations.", "quantifier": "every ions sheet, concentrations, units and results", "why_tests_cant": "All sheets, values and units", "anchors": ["IonExchangeModel/ixpy/hsdmixbatch.py: load_data, save_results", "IonExchangeModel/ixpy/psdmixbatch.py: load_data, save_results"]}
{"id": "C120", "title": "A unit corrected at the prompt is the unit of the results", "statement": "When the sheet's unit is not accepted and the user types another, the data are read in that unit and, without a request, the results are saved in it.", "quantifier": "every sheet, sequence of typed answers and results", "why_tests_cant": "Interactive answers of any length, followed by a run and a save", "anchors": ["IonExchangeModel/ixpy/hsdmix.py: load_data, save_results", "IonExchangeModel/ixpy/hsdmixbatch.py: load_data, save_results"]}
{"id": "C121", "title": "The command line runs the named model and saves in the asked units", "statement": "Modes other than hsdm and psdm end the program. Otherwise the named model is run on the file and the results are saved with times and concentrations in the units given, hours and each ion's own unit when an option is missing or empty.", "quantifier": "every file, mode, options and behaviour of the solvers", "why_tests_cant": "All files and option values", "anchors": ["IonExchangeModel/ixpy/runner.py: parse_args, run_ixpy"]}
{"id": "C122", "title": "The web application's collocation is the package's", "statement": "The R solver's collocation grids and matrices are the package's: they differentiate every polynomial of the degree they can carry exactly at every collocation point, and the radial weights integrate over a bead exactly and sum to a third.", "quantifier": "every number of radial and axial points and Jacobi roots", "why_tests_cant": "All orders, exact polynomial identities", "anchors": ["Shiny-IEX/Ion_Exchange_Model.R: HSDMIX_solve, PSDMIX_solve"]}
{"id": "C123", "title": "The web application's solver computes the package's rates", "statement": "For every column the right-hand side of the R solver, gel or macroporous, equals the Python package's, so both user interfaces solve the same model; any sheet the package accepts is accepted.", "quantifier": "every column, ion list, operators, influent and state", "why_tests_cant": "All sizes of sheets and states", "anchors": ["Shiny-IEX/Ion_Exchange_Model.R: HSDMIX_solve, PSDMIX_solve"]}
{"id": "C124", "title": "The web application's solver keeps resin sites and ions balanced", "statement": "In the R solver exchange rates of the resin sum to zero at every point, so every bead keeps exactly its capacity along every solution and the closing check accepts every exact solution, and what an ion gains in a slice is what the flow brings in.", "quantifier": "every column, influent history and solution", "why_tests_cant": "All trajectories", "anchors": ["Shiny-IEX/Ion_Exchange_Model.R: HSDMIX_solve, PSDMIX_solve"]}
{"id": "C125", "title": "In the web application every ion is fed with its own influent", "statement": "A run is refused unless the ion sheet and the influent table name the same ions. When it is accepted, the solver feeds every ion with the column of its own name, converted to meq/L and interpolated in time, whatever the order of the columns.", "quantifier": "every ion sheet and influent table", "why_tests_cant": "All tables and orders of columns", "anchors": ["Shiny-IEX/Ion_Exchange_Model.R: model_prep, cin_correct, HSDMIX_solve"]}
{"id": "C126", "title": "The web application hands the solver the entered quantities", "statement": "Depth, bead radius, velocity (entered or from flow and diameter), film coefficients and diffusivities reach the solver in cm and s for every combination of units, gpm/ft^2 to one part in 1e11; everything else unchanged; a bed volume lasts depth over velocity.", "quantifier": "every value and unit of every box", "why_tests_cant": "All combinations of values and units", "anchors": ["Shiny-IEX/Ion_Exchange_Model.R: model_prep, get_bv_in_sec, unit tables"]}
{"id": "C127", "title": "The web application converts concentrations correctly", "statement": "For every unit offered, influents are converted to meq/L and measured effluents and results to mg/L according to molecular weight and valence.", "quantifier": "every ion, unit and concentration", "why_tests_cant": "All values and units", "anchors": ["Shiny-IEX/Ion_Exchange_Model.R: cin_correct, mass_converter_mgl, HSDMIX_in_hours_mgl"]}
{"id": "C128", "title": "The web application saves results in the chosen units", "statement": "Every finished run can be saved; the sheet saved in input units has every ion in the unit of the ion sheet, the one in output units in mg/L.", "quantifier": "every ion sheet and result", "why_tests_cant": "All ion lists", "anchors": ["Shiny-IEX/Ion_Exchange_Model.R: HSDMIX_in_hours_meq_ng, outputsave"]}
{"id": "C129", "title": "Times on the web application's axes are right", "statement": "Reported times are evenly spaced inside the influent table; results and influents are drawn at their times in the chosen unit, or in thousands of bed volumes.", "quantifier": "every table, time unit and box", "why_tests_cant": "All units and tables", "anchors": ["Shiny-IEX/Ion_Exchange_Model.R: processed_data, cindat_converter, report times"]}
{"id": "C130", "title": "The alkalinity calculator balances", "statement": "The carbonate species are in equilibrium and share the total, the total reproduces the entered alkalinity at the entered pH, and bicarbonate is shown in mM, mg C/L and mg HCO3/L exactly when it is not negative; it increases with alkalinity.", "quantifier": "every alkalinity and pH", "why_tests_cant": "All real alkalinities and pHs", "anchors": ["Shiny-IEX/Ion_Exchange_Model.R: bicarbonate calculator"]}
{"id": "C131", "title": "The film-transfer calculator uses the entered bead and velocity", "statement": "The estimated film coefficient is the Gnielinski correlation at the column's bead radius, velocity, porosity and temperature, whatever units they are entered in.", "quantifier": "every column, unit, temperature and molar volume", "why_tests_cant": "All values and units", "anchors": ["Shiny-IEX/Ion_Exchange_Model.R: film transfer calculator"]}
{"id": "C132", "title": "Every ion is drawn", "statement": "Every ion's results are drawn in exactly one of the two plots, counter-ions in the first and all others in the second.", "quantifier": "every ion list and results", "why_tests_cant": "All orders of ions", "anchors": ["Shiny-IEX/Ion_Exchange_Model.R: counterIon_loc, computed_data_prep, plots"]}
{"id": "C133", "title": "Relative concentrations are relative to the ion's own influent", "statement": "C/C0 of an ion is its concentration over its own first influent, both in meq/L.", "quantifier": "every ion sheet, influent table and result", "why_tests_cant": "All orders and units", "anchors": ["Shiny-IEX/Ion_Exchange_Model.R: cc0_conv_meq, HSDMIX_cc0"]}
{"id": "C134", "title": "The carbon app hands over the column on the page", "statement": "The column passed to the model is the one on the page: lengths in cm, mass in g, densities in g/mL and flow in mL/min, whatever units are selected, and with a linear velocity the flow through the bed's cross-section.", "quantifier": "every page and every combination of the offered units", "why_tests_cant": "All combinations of units", "anchors": ["Shiny-GAC/GACapp.R: column_data, length_conv, volumetric_conv, weight_conv"]}
{"id": "C135", "title": "The carbon app's multipliers bring data to ug/L and minutes", "statement": "The multipliers passed along convert concentrations of the selected unit to ug/L and times of the selected unit to minutes.", "quantifier": "every unit the application knows", "why_tests_cant": "All unit names, including those a sheet brings along", "anchors": ["Shiny-GAC/GACapp.R: column_data"]}
{"id": "C136", "title": "The carbon app's axes show the data in the selected units", "statement": "A value of the data or results is drawn at its time in the selected unit, or at the thousands of bed volumes that have passed, and at its concentration in the selected unit.", "quantifier": "every page, unit and value", "why_tests_cant": "All units and both ways of giving the flow", "anchors": ["Shiny-GAC/GACapp.R: get_bv_in_sec, output_conv, time_conv, mass_conv"]}
{"id": "C137", "title": "The carbon app's C/C0 is relative to the compound's own influent", "statement": "On a relative axis every computed, effluent and influent point shows its concentration over the first influent concentration of its compound.", "quantifier": "every influent, effluent and result table", "why_tests_cant": "All orders and numbers of compounds", "anchors": ["Shiny-GAC/GACapp.R: cc0_conv_ngl, c_points_cc0, process_output"]}
{"id": "C138", "title": "A run the carbon app accepts is one the package can make", "statement": "If the input check passes, the fouling choices are known to the package and the porosity of the bed is between 0 and 1.", "quantifier": "every page that passes the check, every compound", "why_tests_cant": "All pages", "anchors": ["Shiny-GAC/GACapp.R: error_handling", "PSDM/psdm/PSDM.py: PSDM.__init__, __get_fouling_params"]}
{"id": "C139", "title": "The carbon app uses the collocation points chosen", "statement": "The model runs with the numbers of radial and axial collocation points set on the page.", "quantifier": "every page", "why_tests_cant": "All settings", "anchors": ["Shiny-GAC/GACapp.R: nrv, nzv"]}
{"id": "C140", "title": "A workbook saved by the carbon app restores the session", "statement": "Reading a saved workbook gives the same column, check and measurements as when it was saved.", "quantifier": "every page and every pair of tables", "why_tests_cant": "All pages and tables", "anchors": ["Shiny-GAC/GACapp.R: columnspecs_prep, read_in_files, infdat_prep, effdat_prep"]}
{"id": "C141", "title": "Use Data takes over fitted parameters only", "statement": "Using fitted data replaces the isotherm parameters by those of a successful fit, and by nothing else.", "quantifier": "every history of fits", "why_tests_cant": "Needs every history, including none and failed fits", "anchors": ["Shiny-GAC/GACapp.R: kdata_fit, kdat_fitted, observeEvent(input$Use)"]}
{"id": "C142", "title": "Every measurement is drawn once", "statement": "Every influent and effluent measurement is drawn exactly once, under its compound's name and mark.", "quantifier": "every table", "why_tests_cant": "All numbers of rows and columns", "anchors": ["Shiny-GAC/GACapp.R: effluent_data_processor, influent_chemical_renamer, influent_organizer"]}
{"id": "C143", "title": "Powdered-carbon results are drawn in the chosen units", "statement": "Concentrations and times of a run are drawn in the unit chosen on the page, whatever unit that is.", "quantifier": "every result and offered unit", "why_tests_cant": "All numbers", "anchors": ["Shiny-PAC/PACapp.R: mass_conv, time_conv, output plots"]}
{"id": "C144", "title": "Powdered-carbon relative concentrations use the compound's own influent", "statement": "With C/C0 chosen, every value drawn is the concentration of the compound divided by that compound's influent concentration, in the same unit.", "quantifier": "every sheet of compounds and result table", "why_tests_cant": "All numbers of compounds and times", "anchors": ["Shiny-PAC/PACapp.R: observeEvent(input$run_button), convert_array, alt_conc_int"]}
{"id": "C145", "title": "The dosage study covers the doses chosen", "statement": "Concentrations and waiting times are given at the number of evenly spaced doses chosen on the page, from the lowest to the highest.", "quantifier": "every range and number of doses", "why_tests_cant": "All ranges", "anchors": ["Shiny-PAC/PACapp.R: observeEvent(input$calculate_by_target)", "Shiny-PAC/PAC.py: _R_HRT_calculator_for_dosage"]}
{"id": "C146", "title": "Waiting times are those of the water in the sheet", "statement": "The waiting time to reach a target is the one of the water described by the compounds sheet, concentrations read in the units of the sheet.", "quantifier": "every sheet of compounds, target and choice of units", "why_tests_cant": "All sheets", "anchors": ["Shiny-PAC/PACapp.R: observeEvent(input$calculate_by_target)", "Shiny-PAC/PAC.py: _R_HRT_calculator_for_dosage"]}
{"id": "C147", "title": "A powdered-carbon workbook is used and saved as it is", "statement": "The values of a workbook are used as given, and a saved workbook holds the values of the page.", "quantifier": "every workbook and every edit", "why_tests_cant": "All values", "anchors": ["Shiny-PAC/PACapp.R: updateNumericInput calls, save button handler"]}
{"id": "C148", "title": "The balances survive the numerical integration", "statement": "Whatever steps, orders, tolerances and Jacobians the integrator uses, every state it computes (in exact arithmetic) has the resin capacity at every depth and radius of an ion-exchange column, the starting amount of every ion in a batch reactor and the starting amount of adsorbate with powdered carbon; the web application's closing check therefore accepts every run.", "quantifier": "every program input, every step sequence of a step-by-step integrator, in particular every BDF and Runge-Kutta run", "why_tests_cant": "The integrator's choices are unbounded and depend on tolerances and library versions", "anchors": ["IonExchangeModel/ixpy/hsdmix.py: solve", "IonExchangeModel/ixpy/psdmix.py: solve", "IonExchangeModel/ixpy/hsdmixbatch.py: solve", "IonExchangeModel/ixpy/psdmixbatch.py: solve", "Shiny-PAC/PAC.py: run_PAC_PSDM", "Shiny-IEX/Ion_Exchange_Model.R: HSDMIX_solve, PSDMIX_solve"]}
{"id": "C149", "title": "The numerical integration keeps an equilibrium", "statement": "Started in equilibrium with a constant influent (or, in a batch, with the liquid), every state that the integrator computes is the starting state, whatever steps it takes.", "quantifier": "every equilibrium start, every BDF or Runge-Kutta run", "why_tests_cant": "The integrator's choices are unbounded", "anchors": ["IonExchangeModel/ixpy/hsdmix.py: solve", "IonExchangeModel/ixpy/psdmix.py: solve", "IonExchangeModel/ixpy/hsdmixbatch.py: solve", "PSDM/psdm/PSDM.py: run_psdm", "Shiny-PAC/PAC.py: run_PAC_PSDM"]}
{"id": "C150", "title": "Only simulated values are reported", "statement": "Every reported value belongs to a point that the integrator computed or lies between two neighbouring ones; an integration that stops early gives no values for later times.", "quantifier": "every outcome of the integrator, finished or not", "why_tests_cant": "Needs every way in which the integrator can stop", "anchors": ["IonExchangeModel/ixpy/hsdmix.py: solve", "IonExchangeModel/ixpy/hsdmixbatch.py: solve", "PSDM/psdm/PSDM.py: run_psdm", "Shiny-PAC/PAC.py: run_PAC_PSDM"]}
{"id": "C151", "title": "The web application's own copy of the granular-carbon package is the package", "statement": "For the same inputs the copy of the package that the web application carries records the same mass-transfer coefficients, integrates the same equations and fits the same isotherm as the package.", "quantifier": "every input, water type, state and time", "why_tests_cant": "The copies are separate texts; comparing results of a few runs does not compare the equations", "anchors": ["PSDM/psdm/PSDM.py: run_psdm, run_all", "Shiny-GAC/psdm/PSDM.py: run_psdm, run_all"]}
{"id": "C152", "title": "The surface diffusivity by correlation gives the requested flux ratio", "statement": "Where no surface diffusivity is supplied, the one used makes surface diffusion carry the requested surface-to-pore ratio times the flux of pore diffusion, at the influent concentration.", "quantifier": "every column, isotherm, influent and ratio", "why_tests_cant": "Real-valued formula over all isotherm exponents and concentrations", "anchors": ["PSDM/psdm/PSDM.py: run_psdm"]}
{"id": "C153", "title": "Declaring the sparsity of the Jacobian does not change it", "statement": "With the sparsity pattern handed to the integrator, which then varies whole groups of unknowns at once and reads only the declared entries, every entry of the Jacobian it obtains is the one obtained by varying that unknown alone.", "quantifier": "every column, mixture, state, time, step of differences and grouping compatible with the pattern", "why_tests_cant": "A missing entry corrupts the Jacobian only for some states and groupings, and then only slows or degrades the integration", "anchors": ["IonExchangeModel/ixpy/hsdmix.py: approx_Jac_struc", "IonExchangeModel/ixpy/psdmix.py: approx_Jac_struc", "PSDM/psdm/PSDM_functions.py: spar_Jac", "PSDM/psdm/PSDM.py: run_psdm"]}
{"id": "C154", "title": "The order of the ions or compounds does not matter", "statement": "Listing the ions behind the presaturant, or the compounds, in another order gives the same run with its results in that order.", "quantifier": "every order, mixture, influent history, start and reactor type", "why_tests_cant": "All orders of mixtures of any size and all histories", "anchors": ["IonExchangeModel/ixpy/hsdmix.py: HSDMIX.solve", "IonExchangeModel/ixpy/psdmix.py: PSDMIX.solve", "IonExchangeModel/ixpy/hsdmixbatch.py: HSDMIXbatch.solve", "IonExchangeModel/ixpy/psdmixbatch.py: PSDMIXbatch.solve", "PSDM/psdm/PSDM.py: run_psdm"]}
{"id": "C155", "title": "Listing an ion or compound that is nowhere present changes nothing", "statement": "If an ion or compound is in neither the influent nor the bed at the start, the run is that of the others alone, and it stays absent.", "quantifier": "every mixture, influent history, operator and reactor type", "why_tests_cant": "All mixtures, properties of the absent species and histories", "anchors": ["IonExchangeModel/ixpy/hsdmix.py: HSDMIX.solve", "IonExchangeModel/ixpy/psdmix.py: PSDMIX.solve", "IonExchangeModel/ixpy/hsdmixbatch.py: HSDMIXbatch.solve", "IonExchangeModel/ixpy/psdmixbatch.py: PSDMIXbatch.solve", "PSDM/psdm/PSDM.py: run_psdm"]}
{"id": "C156", "title": "A mesh designation stands for the mean of its two sieve openings", "statement": "The particle diameter taken from a designation such as 12x40 is the mean of the openings of the two U.S. standard sieves, and an unknown sieve number is refused.", "quantifier": "every pair of sieve numbers", "why_tests_cant": "The table has to be compared with the standard series for every pair, and refusal must hold for every other name", "anchors": ["PSDM/psdm/PSDM_extra.py: calc_mesh_diameter, calc_RSSCT_specs, build_large_scale_column"]}
{"id": "C157", "title": "The powdered-carbon page simulates the contactor entered", "statement": "With 'Dimensions' selected the contactor has the volume of the square tank with the length and height entered, with 'Volume' selected the volume entered, and the flow entered, in every unit on offer.", "quantifier": "every entry, unit and selection", "why_tests_cant": "All values and combinations of units; the volume is not shown anywhere", "anchors": ["Shiny-PAC/PACapp.R: volselect, contactor_session", "Shiny-PAC/PAC.py: PAC_CFPSDM.__init__, R_run_PAC"]}
{"id": "C158", "title": "A run is determined by its inputs", "statement": "The equations of a simulation have one solution: two exact runs of the same column, contactor or batch with the same sheet and influent that start alike are alike at every time, so that what is reported does not depend on which of several solutions an integrator follows.", "quantifier": "every sheet, influent, starting state and duration", "why_tests_cant": "Uniqueness is about all functions of time; equations with square roots and powers can branch", "anchors": ["IonExchangeModel/ixpy/hsdmix.py: HSDMIX.solve.diffun", "IonExchangeModel/ixpy/psdmix.py: PSDMIX.solve.diffun", "IonExchangeModel/ixpy/hsdmix.py: calc_Ceq_dv, calc_Ceq_mv", "PSDM/psdm/PSDM.py: run_psdm.diffun", "Shiny-PAC/PAC.py: PAC_CFPSDM.run_PAC_PSDM"]}
{"id": "C159", "title": "Stopping a column and restarting it from its saved state continues the run", "statement": "Ending an ion-exchange run at some time and starting a new one with the final state as u_init and the influent from that time on gives the same concentrations at every later time as the uninterrupted run, although each run has its own internal time unit.", "quantifier": "every column, influent, state and moment of interruption", "why_tests_cant": "All moments and states; the time unit depends on the first influent of each run", "anchors": ["IonExchangeModel/ixpy/hsdmix.py: HSDMIX.solve (u_init)", "IonExchangeModel/ixpy/psdmix.py: PSDMIX.solve (u_init)"]}
{"id": "C160", "title": "After an upload a web page shows the uploaded workbook, and the defaults for sheets it leaves out", "statement": "When a workbook is uploaded to one of the three web pages, the page comes back with the tables of that workbook; for a sheet that the workbook does not have it announces that it reverts to the default values, and shows those of the shipped workbook whatever was uploaded before.", "quantifier": "every shipped workbook, every history of uploads and openings, every workbook", "why_tests_cant": "Histories of uploads are unbounded; what is left over from one matters for the next", "anchors": ["Shiny-IEX/Ion_Exchange_Model.R: process_files", "Shiny-GAC/GACapp.R: read_in_files", "Shiny-PAC/PACapp.R: read_in_files"]}
{"id": "C161", "title": "Users of a web page do not see each other's data", "statement": "A page shows the defaults or what its own user uploaded, whatever other users of the same server upload before or meanwhile.", "quantifier": "every interleaving of openings and uploads of any number of sessions", "why_tests_cant": "All interleavings of sessions", "anchors": ["Shiny-IEX/Ion_Exchange_Model.R: process_files, server", "Shiny-GAC/GACapp.R: read_in_files, server", "Shiny-PAC/PACapp.R: read_in_files, server"]}
{"id": "C162", "title": "The parameter sheet uploaded to the ion-exchange page reaches the solver", "statement": "After a parameter sheet is uploaded, a run is given the capacity, porosities, bed length, bead radius, velocity (or flow rate and diameter), collocation points and time unit of the sheet, converted from the units in it, and the kind of resin by the presence of the pellet porosity.", "quantifier": "every parameter sheet, previous state of the page, ion and influent table", "why_tests_cant": "All numbers, units and combinations of rows", "anchors": ["Shiny-IEX/Ion_Exchange_Model.R: server (paramsheet, flags), model_prep"]}
{"id": "C163", "title": "A workbook saved from the ion-exchange page brings the run back", "statement": "Saving the page and uploading the saved workbook, into a page in whatever state, makes the next run the same: same column, same ions, same influent, same times, also when a flow rate was entered, which is saved as a velocity.", "quantifier": "every content of the boxes in offered units, every state of the page it is uploaded to, every ion and influent table", "why_tests_cant": "All contents of the page", "anchors": ["Shiny-IEX/Ion_Exchange_Model.R: paramdf, server (paramsheet, veloselect), model_prep"]}
{"id": "C164", "title": "The results on the ion-exchange page are those of the last successful run", "statement": "Whatever is edited and however often the run button is pressed, the concentrations shown for an ion are the results for that ion of the last run that succeeded, in mg/L by the molecular weight and valence used in it; and a run is refused exactly if the names of the two tables disagree or a cell is missing.", "quantifier": "every sequence of edits and runs, every solver", "why_tests_cant": "Sequences of edits and runs are unbounded", "anchors": ["Shiny-IEX/Ion_Exchange_Model.R: error_handling, out, allchemicals_hours_meq, allchemicals_hours_mgl"]}
{"id": "C165", "title": "A lead-lag system refuses to run if and only if something was found wrong with its inputs", "statement": "After setting up a lead-lag system from arguments or from a resin workbook, run_LL refuses (returns the error entry) exactly if the carbon properties, the raw data, the isotherm table that a carbon vessel needs, or a sheet of the workbook was missing or unreadable.", "quantifier": "every set of arguments, with and without a workbook", "why_tests_cant": "The combinations of missing inputs are many and the error flag is set and cleared in several places", "anchors": ["PSDM/psdm/lead_lag_class.py: LLobj.__init__, LLobj.run_LL"]}
{"id": "C166", "title": "A lead-lag system runs resin vessels with the ions and parameters it was given", "statement": "The ion sheet, the parameters and the influents that are written out for the resin model are those of the arguments or of the workbook, apart from the collocation points of the call and hours converted to days.", "quantifier": "every set of arguments or workbook", "why_tests_cant": "Every ion table and parameter sheet", "anchors": ["PSDM/psdm/lead_lag_class.py: LLobj.__init__, io_data"]}
{"id": "C167", "title": "Selectivities are those given, multiplied by the factor of their range, and arguments are not changed", "statement": "The ion table of a lead-lag system holds the counterions as given and every selected compound with its selectivity, multiplied by the lower factor between the two bounds and by the upper factor from the upper bound on; adding a compound takes the selectivity in the call, adding it twice changes nothing, and the caller's tables are not modified.", "quantifier": "every list of counterions, table of selectivities and adjustment", "why_tests_cant": "Selectivities, bounds and the sharing of lists between caller and system range over all inputs", "anchors": ["PSDM/psdm/lead_lag_class.py: LLobj.__init__, LLobj.add_resin_selectivity"]}
{"id": "C168", "title": "A simulation can be started and goes on until its end or until a named event", "statement": "The equations of every physically sensible sheet have a solution from the state the code starts with: a column, contactor or batch reactor runs for some time, and the run goes on to the requested duration unless the resin comes arbitrarily close to a state whose exchange equilibrium has no solution (in a batch reactor: or which holds no divalent charge), or, for carbon, some concentration grows beyond every bound. A granular-carbon column with one compound on two radial points always runs to the requested duration.", "quantifier": "every sheet with physical values, every influent that is continuous in time, every starting state in normal use and every duration", "why_tests_cant": "Existence is about functions of time; a finite number of integrations shows neither that a solution exists nor where it can end", "anchors": ["IonExchangeModel/ixpy/hsdmix.py: HSDMIX.solve.diffun", "IonExchangeModel/ixpy/psdmix.py: PSDMIX.solve.diffun", "IonExchangeModel/ixpy/hsdmixbatch.py: HSDMIXbatch.solve.diffun", "IonExchangeModel/ixpy/psdmixbatch.py: PSDMIXbatch.solve.diffun", "PSDM/psdm/PSDM.py: run_psdm.diffun", "Shiny-PAC/PAC.py: PAC_CFPSDM.run_PAC_PSDM"]}
{"id": "C169", "title": "Crank's reference curve of a contactor is the diffusion model's solution and agrees with the run it is compared to", "statement": "The Crank curve returned beside a run of the powdered-carbon model exists for every contactor, starts from the influent concentration, falls with time towards the concentration that run ends with, and solves the equations of diffusion from a stirred bath into spheres with the carbon's volume, radius, distribution coefficient and effective diffusivity; the roots it is summed over are all the smallest positive solutions of its characteristic equation, none missed and none twice.", "quantifier": "every carbon, dose and compound with positive properties, every root finder that is right on continuous functions with a change of sign, and every time", "why_tests_cant": "The roots are searched in intervals beside poles of the tangent for any value of a real parameter, and solving a partial differential equation is a statement about all times and radii", "anchors": ["Shiny-PAC/PAC.py: PAC_CFPSDM.get_analytical_sol2.find_qn, finiteSphere"]}
{"id": "C170", "title": "The reference curve with a film is the solution of the film and diffusion model, and each compound has its own", "statement": "The film and surface-diffusion curve returned beside a run of the powdered-carbon model exists for every compound of the run whatever the other compounds are, starts from the influent concentration, falls with time towards the equilibrium concentration, and solves the equations of film transfer and diffusion from a stirred bath into spheres; the roots it is summed over are all the smallest positive solutions of its characteristic equation, none missed and none twice.", "quantifier": "every carbon, dose and list of compounds with positive properties and coefficients, every root finder that is right on continuous functions with a change of sign, and every time", "why_tests_cant": "Whether a root lies in every searched interval depends on two real parameters through poles of a tangent and of a fraction, and solving a partial differential equation is a statement about all times and radii", "anchors": ["Shiny-PAC/PAC.py: PAC_CFPSDM.get_analytical_sol2.find_pn, finiteHSDM"]}
{"id": "C171", "title": "Similar equipment gives the same results", "statement": "Results depend on the size of the equipment only through the contact time and the times of film transfer and diffusion: an ion-exchange column whose contact time, film-transfer time (radius over kL) and diffusion times (radius squared over D) are all r times those of another, with the same resin and ions, shows at r times the time what the other shows, for every history of the influent stretched alike; so do batches with the same resin per volume of water and powdered carbon with the same dose, and carbon columns when the water is steady and the carbon does not foul, or for r = 1 whatever the water does. In particular a small column built to the package's own small-column design breaks through after the same number of bed volumes.", "quantifier": "every pair of similar columns, batches, contactors, every influent history, every time, both diffusion models, every exponent of the small-column scaling", "why_tests_cant": "tests run a few columns; the scaling is an identity between all runs of two families of equipment", "anchors": ["IonExchangeModel/ixpy/hsdmix.py: diffun, get_Cin", "IonExchangeModel/ixpy/psdmix.py: diffun", "IonExchangeModel/ixpy/hsdmixbatch.py: diffun", "PSDM/psdm/PSDM.py: run_psdm", "Shiny-PAC/PAC.py: run_PAC_PSDM", "PSDM/psdm/PSDM_functions.py: calc_solver_matrix", "PSDM/psdm/PSDM_extra.py: calc_RSSCT_specs"]}
{"id": "C172", "title": "Concentrations scale together", "statement": "If every influent concentration and the capacity of the resin are multiplied by the same factor, every concentration of an ion-exchange column or batch run is multiplied by it at every time, with mono- and divalent ions alike; a carbon column fed k times the concentrations, with isotherms that hold k times as much at k times the concentration, reports k times the concentrations.", "quantifier": "every column, batch and carbon column, every influent history, every positive factor, both diffusion models", "why_tests_cant": "tests compare single runs; proportionality is a statement about all runs and all factors", "anchors": ["IonExchangeModel/ixpy/hsdmix.py: calc_Ceq_dv, calc_Ceq_mv, diffun", "IonExchangeModel/ixpy/psdmix.py: diffun", "IonExchangeModel/ixpy/hsdmixbatch.py: diffun", "PSDM/psdm/PSDM.py: run_psdm"]}
{"id": "C173", "title": "Listing an ion in several rows gives the same totals", "statement": "If an ion other than the presaturant is entered in several rows of the ion sheet with the same valence, selectivity and transfer coefficients, its influent being divided among them, the concentrations of the rows add up at every time to those of a run with the ion in one row, and the other ions are unaffected.", "quantifier": "every column and batch, every division of every influent history, any number of rows, every start", "why_tests_cant": "All divisions of all influents and all numbers of rows", "anchors": ["IonExchangeModel/ixpy/hsdmix.py: HSDMIX.solve, calc_Ceq_dv, calc_Ceq_mv, get_Cin", "IonExchangeModel/ixpy/psdmix.py: PSDMIX.solve", "IonExchangeModel/ixpy/hsdmixbatch.py: HSDMIXbatch.solve", "IonExchangeModel/ixpy/psdmixbatch.py: PSDMIXbatch.solve"]}
{"id": "C174", "title": "A conversion reports the unit its factor belongs to", "statement": "When a unit was not understood the user is asked for another, and the converter reports the unit finally used: converting from the reported unit asks nothing, gives the same factor and reports the same unit.", "quantifier": "every converter of parameter sheets, input unit, output unit and sequence of answers", "why_tests_cant": "All strings and all dialogues: tests try a few units", "anchors": ["IonExchangeModel/ixpy/paramsheets.py: conv_units, conv_length, conv_volume, conv_time, conv_area, conv_weight, conv_conc, conv_vol_per_time, conv_vel, conv_dens, conv_area_per_time, conv_capacity_mass, conv_capacity_vol, conv_fr_to_vel"]}
{"id": "C175", "title": "A dose study shows what separate runs would", "statement": "For each dose of a study the concentrations reported are those that a run of 1000 minutes of a new contactor with this dose shows at the given times (joined by straight lines, the last one afterwards), and the waiting times, for each dose and each starting concentration, those at which a run of 3000 minutes of such a new contactor comes down to the target; which doses and concentrations come before in the study, and which studies were made with the contactor before, successful or not, makes no difference.", "quantifier": "every carbon, contactor, sheet of compounds, list of doses, times and concentrations, every sequence of earlier studies, every solver", "why_tests_cant": "Histories of studies that share one object are unbounded; tests look at one study of a new object", "anchors": ["Shiny-PAC/PAC.py: PAC_CFPSDM.run_multi_dosage, PAC_CFPSDM.multi_dosage_analyzer, PAC_CFPSDM._run_multi_doseR, PAC_CFPSDM.HRT_calculator_for_dosage, PAC_CFPSDM._R_HRT_calculator_for_dosage, R_run_PAC", "Shiny-PAC/PACapp.R"]}
{"id": "C176", "title": "In a carbon-resin train what the carbon does not treat reaches the resin as raw water", "statement": "When a carbon vessel is followed by a resin vessel, a compound for which the carbon vessel is not simulated reaches the resin with the concentration of the raw water; the ions exchanged only by the resin keep the concentration of the resin's influent sheet.", "quantifier": "every train, raw data, influent sheet, list of compounds and duration", "why_tests_cant": "an example with one list of compounds shows nothing about compounds left out of another; the resin run succeeds either way", "anchors": ["PSDM/psdm/lead_lag_class.py: run_LL_gac_ix"]}
{"id": "C177", "title": "A fit stays within the ranges the user gave", "statement": "A grid fit of K and 1/n tries and stores only values within the ranges the user set for them.", "quantifier": "every simulation, range, grid size, number of rounds and starting table", "why_tests_cant": "which values are tried depends on where the errors are least in each round; tests see one error surface", "anchors": ["PSDM/psdm/PSDM.py: run_all", "PSDM/psdm/PSDM_functions.py: generate_grid"]}
{"id": "C178", "title": "A powdered-carbon run follows film transfer and pore and surface diffusion", "statement": "Between two instants the water loses through the grains' surface what film transfer carries, driven by the difference with the pore liquid there; inside, the amount at each radius changes by diffusion of the pore liquid and of the adsorbed amount; the pore liquid is at Freundlich equilibrium with the carbon; results are reported in minutes and in the chosen unit.", "quantifier": "every carbon, compound, dose, number of points and state of the contactor", "why_tests_cant": "All states and sheets", "anchors": ["Shiny-PAC/PAC.py: run_PAC_PSDM, diffun"]}
{"id": "C179", "title": "The dimensionless groups of a powdered-carbon study are those of its transport", "statement": "The groups computed for a compound are: the amount in the grains over the amount in the water at equilibrium with the influent (adsorbed, in the pores and together), the loading per gram of carbon, the diffusion time scales, and the ratio of film transfer to diffusion in the grains.", "quantifier": "every contactor, carbon, dose and compound in every unit", "why_tests_cant": "All sheets and doses", "anchors": ["Shiny-PAC/PAC.py: _update_values"]}
{"id": "C180", "title": "Measured influents and effluents are drawn at their own times and concentrations on the ion-exchange page", "statement": "With the boxes ticked, the plots show every measured influent and effluent once, under its ion's name, at its time in the chosen unit and its concentration in the chosen unit or relative to the ion's own first influent, in the plot its ion belongs to.", "quantifier": "every influent and effluent sheet, ion sheet, choice of units and order of columns", "why_tests_cant": "All sheets, units and column orders", "anchors": ["Shiny-IEX/Ion_Exchange_Model.R: effluent_data_processor, influent_organizer, effluent_cc0, effluent_processed, influent_processed"]}
{"id": "C181", "title": "The results on the granular-carbon page and in its workbook are those of the last successful run", "statement": "Whatever is edited and however often the run button is pressed, the plot shows the results of the last run that succeeded, in the chosen units, converted with the units, the column and the influents of that run; and the workbook that is saved holds those results beside the inputs they come from.", "quantifier": "every sequence of edits and runs, every model that the button may call, every choice of units", "why_tests_cant": "Sequences of edits, refused runs and failed runs are unbounded, and what is converted when depends on the reactive graph", "anchors": ["Shiny-GAC/GACapp.R: error_handling, out, computed_data, cc0data_ngl, outputchemicals, computational_processed, save_button"]}
{"id": "C182", "title": "A resin column is run on the values of its sheet, each ion by its name, and not at all when one is missing", "statement": "The bed, resin and grid parameters of a column run are those loaded from the parameter sheet; every ion has the film coefficient, diffusivities, selectivity and valence of its own row and, converted to meq/L, the influent of its own column; a parameter, an ion column or an influent that is missing stops the run with an error and is never replaced by an assumed value; and when all are there and the reporting times lie within the influents, there is a run.", "quantifier": "every pair of sheets and influent table, both column models, every list of reporting times", "why_tests_cant": "The sheets, their order of rows and columns and what is left out of them range over unboundedly many cases", "anchors": ["IonExchangeModel/ixpy/hsdmix.py: HSDMIX.load_data, HSDMIX.solve", "IonExchangeModel/ixpy/psdmix.py: PSDMIX.solve"]}
{"id": "C183", "title": "A film-transfer correlation chosen by name is the one of that name", "statement": "For each of the nine names that kf_calc knows, the film coefficient is the multiplier times the Sherwood number that the cited compilation gives for that author, as a number; another name is computed with Gnielinski's.", "quantifier": "every positive Reynolds and Schmidt number, porosity and multiplier, every name", "why_tests_cant": "Real-valued formulas with several ranges and arbitrary strings", "anchors": ["PSDM/psdm/PSDM_functions.py: kf_calc, gnielinski, ohashi"]}
{"id": "C184", "title": "A breakthrough after the end of the record is where the extrapolated effluent reaches the influent", "statement": "When the effluent does not reach the influent within the record, the stored breakthrough time is the day on which the fitted logistic curve reaches 99 % of its plateau, or on which the straight line through the readings with effluent, or through the last two readings, reaches the average influent.", "quantifier": "every record of influent and effluent, every outcome of the fits and every rounding", "why_tests_cant": "The fits may give any curve or line and the records any number of readings", "anchors": ["PSDM/psdm/PSDM.py: __calculate_capacity"]}
{"id": "C185", "title": "Simulated concentrations are never negative", "statement": "In a simulated ion-exchange column fed non-negative concentrations, the liquid concentration of every ion, in the bed and in the effluent, is never negative.", "quantifier": "every column, number of points, influent, both models, with and without finite elements, every time of the exact solution", "why_tests_cant": "The sign must hold at every time and point of every column; comparisons with reference breakthrough curves look at few points and tolerate small errors", "anchors": ["IonExchangeModel/ixpy/hsdmix.py: solve, diffun", "IonExchangeModel/ixpy/psdmix.py: solve, diffun", "IonExchangeModel/ixpy/colloc.py: build_collocation, advect_operator"]}
{"id": "C186", "title": "The results on the powdered-carbon page and in its workbook are those of the last run and the last study", "statement": "Whatever is edited and however often the buttons are pressed, the curves are the results of the last run, in the chosen units and relative to the starting concentrations of that run; the concentrations by dose and the waiting times are those of the last study, shown with the target it was made for; a run that fails leaves them as they are; and the workbook that is saved holds them beside the inputs they come from.", "quantifier": "every sequence of edits, runs and studies, every integration, every choice of units", "why_tests_cant": "Which inputs the results on a page belong to depends on the whole sequence of edits and runs before; tests press a button once.", "anchors": ["Shiny-PAC/PACapp.R: observeEvent(input$run_button), observeEvent(input$calculate_by_target), pac_obj_processed, sub_data_processed, HRT_obj, p3, callDownloadHandler", "Shiny-PAC/PAC.py: R_run_PAC, PAC_CFPSDM._run_multi_doseR, PAC_CFPSDM._R_HRT_calculator_for_dosage"]}
{"id": "C187", "title": "The radial grid integrates exactly and diffusion inside a bead only evens out", "statement": "The points, weights and Laplacian of the radial collocation exist for every number of points and every shape (slab, cylinder, sphere) and are the same however the points are found; the weights integrate every profile of the represented degree (and its square) exactly over the bead; the weighted sum of the Laplacian of a profile is the gradient at the surface, so diffusion inside creates nothing; and the weighted sum of a profile times its Laplacian is never more than what crosses the surface times the value there, so diffusion inside never sharpens a profile.", "quantifier": "every number of collocation points, every shape, every profile", "why_tests_cant": "Tests evaluate the operators for a few sizes; exactness, conservation and dissipation are statements about every size and every profile.", "anchors": ["IonExchangeModel/ixpy/colloc.py: recur, calc_px_column, recur_colloc_symm, build_collocation", "Shiny-PAC/PAC.py: calc_px_column, run_PAC_PSDM"]}
{"id": "C188", "title": "The concentration in a powdered-carbon contactor stays between film transfer alone and what was put in", "statement": "From clean carbon the concentration in the water is at every time at most what was put in and at least what would be left if everything that reaches the surface of the carbon stayed there; the carbon holds nothing negative and no more than the water has brought; a run with surface diffusion and an exponent of at most one lasts for every duration; so every number in the result tables of an exact integration lies between these two bounds.", "quantifier": "every carbon, dose, compound with physical values, number of collocation points, duration and time", "why_tests_cant": "The bound holds along every run of a stiff nonlinear system; tests see a few runs at a few times.", "anchors": ["Shiny-PAC/PAC.py: run_PAC_PSDM", "IonExchangeModel/ixpy/colloc.py: recur_colloc_symm"]}
{"id": "C189", "title": "A powdered-carbon contactor left alone settles at the equilibrium of isotherm and mass balance", "statement": "For every content of water and carbon there is exactly one concentration at which the Freundlich isotherm and the mass balance both hold. Every run with surface diffusion and an exponent of at most one comes as close to it as one likes and stays there: the water at that concentration and every point in the carbon grain at the loading of the isotherm, however many collocation points are used. Starting from clean carbon, a larger dose has a lower such concentration.", "quantifier": "every carbon, dose, compound with physical values and exponent of at most one, number of collocation points, starting state and tolerance", "why_tests_cant": "A statement about the limit of infinitely long runs of a nonlinear system; a test ends after finitely many minutes and cannot tell slow from stuck.", "anchors": ["Shiny-PAC/PAC.py: run_PAC_PSDM", "IonExchangeModel/ixpy/colloc.py: recur_colloc_symm"]}
{"id": "C190", "title": "The distribution coefficient behind the powdered-carbon reference curves is that of equilibrium", "statement": "The reference curves use the ratio of loading to concentration at the end of a run made long enough to have reached equilibrium: it is the ratio that isotherm and mass balance give.", "quantifier": "every carbon, dose, compound with physical values, number of collocation points", "why_tests_cant": "Whether 3000 minutes suffice depends on all parameters; tests see a few sheets.", "anchors": ["Shiny-PAC/PAC.py: get_analytical_sol2, run_PAC_PSDM"]}
{"id": "C191", "title": "A granular-carbon run never computes a negative concentration", "statement": "In a granular-carbon column fed non-negative concentrations, the liquid concentration of every compound that the solver computes, in the bed and in the effluent, is never negative, so that the correction of negative values in the report has nothing to do.", "quantifier": "every column with Freundlich exponents 1/n of at most one, number of compounds, points and finite elements, influent, fouling, every time of the exact solution", "why_tests_cant": "The sign must hold at every time and point of every column, and the report replaces negative values by zero, so that no comparison of reported values can see them", "anchors": ["PSDM/psdm/PSDM.py: run_psdm, diffun", "PSDM/psdm/PSDM_functions.py: calc_solver_matrix"]}
{"id": "C192", "title": "A simulation that no longer changes is exhausted, and there is one such state", "statement": "When the rates of an ion-exchange column, an ion-exchange batch reactor or a granular-carbon bed are all zero, the simulation is where physics says it ends: the liquid is the influent at every depth and in the effluent (in a batch reactor it carries the total of the starting solution), every bead is the same throughout, it is in exchange or adsorption equilibrium with that liquid, and no other state with the same capacity (in a batch reactor, with the same amounts) is at rest. The numerical scheme adds no spurious resting state.", "quantifier": "every column, reactor and bed with positive sizes and transfer coefficients, any number of ions or compounds, radial and axial points and finite elements, both ion-exchange models, every state with non-negative loadings", "why_tests_cant": "A spurious stationary profile of the discretisation would have to be found in a space of all states of all sizes; a test can show only that one run ends where it should", "anchors": ["IonExchangeModel/ixpy/hsdmix.py: diffun", "IonExchangeModel/ixpy/psdmix.py: diffun", "IonExchangeModel/ixpy/hsdmixbatch.py: diffun", "IonExchangeModel/ixpy/psdmixbatch.py: diffun", "IonExchangeModel/ixpy/colloc.py: build_collocation, advect_operator", "PSDM/psdm/PSDM.py: run_psdm, diffun", "PSDM/psdm/PSDM_functions.py: calc_solver_matrix"]}
{"id": "C193", "title": "A simulation that settles, settles at exhaustion and forgets its start", "statement": "If an endless run of an ion-exchange column, an ion-exchange batch reactor or a granular-carbon bed approaches some state while its influent approaches a composition, then the effluent approaches the influent, the beads approach one composition that is the same at every radius and depth and in equilibrium with the influent (in a batch reactor, with the liquid that is left, whose total charge is that of the solution given). Two such runs on the same resin capacity (in a batch reactor, with the same amounts) end in the same state, whatever their starts.", "quantifier": "every column, reactor and bed with positive sizes and transfer coefficients, any number of ions or compounds and of grid points, both ion-exchange models, every influent history that converges (granular carbon: that stops changing), every start, every exact run without end that converges to a state without negative loadings", "why_tests_cant": "A statement about the limit of infinitely long runs from every start: a test sees finitely long runs from a few starts", "anchors": ["IonExchangeModel/ixpy/hsdmix.py: diffun", "IonExchangeModel/ixpy/psdmix.py: diffun", "IonExchangeModel/ixpy/hsdmixbatch.py: diffun", "IonExchangeModel/ixpy/psdmixbatch.py: diffun", "IonExchangeModel/ixpy/colloc.py: build_collocation, advect_operator", "PSDM/psdm/PSDM.py: run_psdm, diffun", "PSDM/psdm/PSDM_functions.py: calc_solver_matrix, interp"]}
{"id": "C194", "title": "Every influent has its exhausted state", "statement": "A resin of any given capacity has a state in which a column on a given influent no longer changes exactly if the influent carries the presaturant; with monovalent ions the capacity is then shared in proportion to selectivity times concentration. A batch reactor has a state of rest for any amounts in it, as long as the presaturant and every divalent ion are there. A granular-carbon bed has a state of rest for any influent without negative concentrations, whichever compounds it carries. (By C192 there is only one.)", "quantifier": "every column, reactor and bed with positive sizes and transfer coefficients, any number of ions or compounds and of grid points, both ion-exchange models, any selectivities and Freundlich parameters, every capacity, amount and influent", "why_tests_cant": "Existence of a solution of a nonlinear system for every influent: a test can find one for the influents it tries", "anchors": ["IonExchangeModel/ixpy/hsdmix.py: diffun", "IonExchangeModel/ixpy/psdmix.py: diffun", "IonExchangeModel/ixpy/hsdmixbatch.py: diffun", "IonExchangeModel/ixpy/psdmixbatch.py: diffun", "PSDM/psdm/PSDM.py: run_psdm, diffun"]}
{"id": "C195", "title": "A batch reactor settles", "statement": "A batch reactor that exchanges two ions (a monovalent presaturant and one other ion, mono- or divalent), or any number of mono- and divalent ions on one or two radial points, and runs without end settles: liquid and every radial point of the resin come as close as one likes to one composition and stay there. That composition obeys the exchange law, has the charge of the liquid and the capacity of the resin, and holds exactly the amounts put in. Two runs with the same amounts end in the same state, however they start.", "quantifier": "every run of either batch model (HSDM or PSDM) with two ions, any positive sizes, transfer coefficients and selectivities, any number of radial points at the Jacobi points the code asks for, that starts with the charge of the liquid and the capacity of the resin (fresh reactors do) and along which the resin holds presaturant and no negative loading wherever an equilibrium is computed; and every run of either model with any number of mono- and divalent ions on one or two radial points from a start without negative concentrations and with the right totals (if there are divalent ions: with presaturant and a divalent ion at every radial point)", "why_tests_cant": "Convergence for unlimited time of a nonlinear system; a test stops at some time, for some parameters", "anchors": ["IonExchangeModel/ixpy/hsdmixbatch.py: diffun, calc_Ceq_mv, calc_Ceq_dv", "IonExchangeModel/ixpy/psdmixbatch.py: diffun, calc_Ceq_mv, calc_Ceq_dv", "IonExchangeModel/ixpy/colloc.py: build_collocation"]}
{"id": "C196", "title": "Loadings inside a grain or bead are never negative", "statement": "In a run that starts from clean carbon or fresh resin, with water that carries the compound, the loading that the solver computes is never negative at any radial point of a grain or bead, at any time.", "quantifier": "every powdered-carbon contactor with Freundlich exponent 1/n of at most one, the inlet of every ion-exchange column of either model and of every granular-carbon bed, every ion-exchange batch reactor of either model, any positive sizes, transfer and diffusion coefficients, any number of radial points at the Jacobi points the code asks for, every time of the exact solution", "why_tests_cant": "The sign must hold at every radius and time for every set of parameters; the loadings inside are not part of the results that a test can compare", "anchors": ["Shiny-PAC/PAC.py: run_PAC_PSDM diffun, recur_colloc_symm", "IonExchangeModel/ixpy/hsdmix.py: diffun", "IonExchangeModel/ixpy/psdmix.py: diffun", "IonExchangeModel/ixpy/colloc.py: recur_colloc_symm", "IonExchangeModel/ixpy/hsdmixbatch.py: diffun", "IonExchangeModel/ixpy/psdmixbatch.py: diffun", "PSDM/psdm/PSDM.py: run_psdm diffun", "PSDM/psdm/PSDM_functions.py: calc_solver_matrix"]}
{"id": "C197", "title": "The bed is fed what the influent sheet says, from the first row on", "statement": "Throughout a run of the granular-carbon model the concentration entering the bed is the broken line through the rows of the influent sheet; a compound that the sheet gives as zero is not fed, and a clean bed does not take it up.", "quantifier": "every bed, every list of compounds, every influent sheet and every time, with and without pandas' copy-on-write; for beds in series every response of the first bed that starts at zero", "why_tests_cant": "The reference concentration of a compound that is absent at time zero is set to one through a row taken from the frame. Whether that row is a view or a copy depends on the pandas version, so that the same test passes on one installation and not on another, and a test on a sheet without zeros sees nothing.", "anchors": ["PSDM/psdm/PSDM.py: PSDM.run_psdm", "PSDM/psdm/lead_lag_class.py: LLobj.run_LL_gac"]}
{"id": "C198", "title": "The isotherm table handed to a granular-carbon column stays the caller's", "statement": "Building granular-carbon columns from an isotherm table and running or fitting them leaves the table that was handed in as it was, and what one column does is not seen by another column built from the same table.", "quantifier": "every table, every number of columns built from it and every sequence of constructions, changes of settings, fits and grid trials, with and without pandas' copy-on-write", "why_tests_cant": "Whether a write reaches the caller depends on what was done with the column before: the first fit writes into the table that was handed in, later ones into a copy. A test that looks only at the fitted column, or builds one column per table, sees nothing", "anchors": ["PSDM/psdm/PSDM.py: PSDM.__init__, __set_backups, __reset_column_values, run_psdm_kfit, run_all"]}
{"id": "C199", "title": "All programs divide a sphere and a bed in the same way", "statement": "For the same number of radial points the granular-carbon, powdered-carbon and ion-exchange programs place the points at the same radii of a grain and use the same diffusion matrix and the same weights, and for the same axial points and elements the granular-carbon and ion-exchange programs differentiate along the bed with the same matrix below the inlet, although one program inverts matrices of powers and the others run a recursion; all radial weights are positive.", "quantifier": "every number of radial points, axial points and elements, every pair of root finders and every matrix inversion that keep their promise", "why_tests_cant": "The programs are written separately and by different methods; a test compares a few sizes, to a tolerance", "anchors": ["PSDM/psdm/PSDM_functions.py: calc_solver_matrix", "IonExchangeModel/ixpy/colloc.py: recur_colloc_symm, recur_colloc, advect_operator", "Shiny-PAC/PAC.py: recur_colloc_symm"]}
{"id": "C200", "title": "A batch on a coarse radial grid runs to any end and stays physical", "statement": "A batch reactor with one or two radial points, started from the state the program makes or any other without negative concentrations and with the right totals (if the sheet has divalent ions: and with presaturant and a divalent ion at every radial point of the resin), has a run to every requested end, and one run for all times; throughout it no concentration or loading is negative or above the total of its phase, the totals of the liquid and of every radial point stay what they were, and an ion that is on the resin at a radial point stays there.", "quantifier": "every batch of either model with any number of mono- and divalent ions (for the state the program makes, at most a thousand), positive selectivities, volumes, rates and diffusion coefficients, every end time and start state", "why_tests_cant": "The equilibrium divides by a weighted sum of loadings, or by the loading of the presaturant and by a sum over divalent ions, that nothing in the program keeps away from zero; that it never gets there has to hold for all times and all reactors", "anchors": ["IonExchangeModel/ixpy/hsdmixbatch.py: HSDMIXbatch.solve, calc_Ceq_mv, calc_Ceq_dv, diffun", "IonExchangeModel/ixpy/psdmixbatch.py: PSDMIXbatch.solve, calc_Ceq_mv, calc_Ceq_dv, diffun"]}
{"id": "C201", "title": "The resin at the inlet forgets how it was loaded and comes to equilibrium with the water", "statement": "Two columns fed the same water, however it changes, whose beads at the inlet start at capacity but with different compositions, approach one another there: the sum of the differences in loading over all ions and radial points falls at least exponentially, at a rate that depends only on the column and on the least total concentration of the water. If the water stays the same and carries the presaturant, the beads at the inlet approach exponentially the one composition of that capacity which is in exchange equilibrium with the water.", "quantifier": "every ion-exchange column of either model on one radial point with any number of mono- and divalent ions that share one film coefficient, and on two radial points if they also share one diffusion coefficient (in the pore model: pore and surface diffusion alike; with pores faster than the surface, constant water that carries every ion), every bounded influent history without negative concentrations and with a total bounded away from zero, every pair of starting compositions with presaturant, every axial grid, every time of the exact solution", "why_tests_cant": "The rate must hold for every history of the influent and every pair of starts; the exchange equilibrium is nonlinear and couples all ions, so no finite set of runs bounds it", "anchors": ["IonExchangeModel/ixpy/hsdmix.py: HSDMIX.solve diffun, calc_Ceq", "IonExchangeModel/ixpy/psdmix.py: PSDMIX.solve diffun, calc_Ceq"]}
{"id": "C202", "title": "Errors of the influent do not build up in the resin at the inlet", "statement": "If two columns are fed waters that, from some time on, never differ by more than eps in the sum over the ions, then the loadings of their beads at the inlet differ by at most a constant times eps, plus what was left of their difference at that time, which falls exponentially. The constant and the rate depend only on the column and on the least total concentration, not on how long the run lasts: an error in the influent data shifts the inlet resin by no more than a fixed multiple of itself, and is forgotten once it ends. In particular resin fed water near some constant composition with presaturant comes as near, up to that factor, to equilibrium with it.", "quantifier": "every ion-exchange column of either model on one radial point with any number of mono- and divalent ions that share one film coefficient, and on two radial points if they also share one diffusion coefficient (pore and surface alike in the pore model), every pair of bounded influent histories without negative concentrations and with totals bounded away from zero, every pair of starting compositions at capacity with presaturant, every axial grid, every span of time of the exact solution", "why_tests_cant": "The bound must hold for every pair of histories and be uniform in the length of the run; a finite set of runs shows neither", "anchors": ["IonExchangeModel/ixpy/hsdmix.py: HSDMIX.solve diffun, calc_Ceq", "IonExchangeModel/ixpy/psdmix.py: PSDMIX.solve diffun, calc_Ceq"]}
{"id": "C203", "title": "Water that repeats itself makes the resin at the inlet repeat itself", "statement": "Fed an influent that repeats itself every period within eps in the sum over the ions (a daily or seasonal cycle), the loadings of the beads at the inlet come to repeat themselves with the same period: what they are a period later differs from what they are now by at most a constant times eps plus a term that falls exponentially. With an exactly periodic influent the inlet approaches a periodic state whatever the resin held at the start. The constants depend only on the column and the least total concentration, not on the period or the history.", "quantifier": "every ion-exchange column of either model on one radial point with any number of mono- and divalent ions that share one film coefficient, and on two radial points if they also share one diffusion coefficient (pore and surface alike in the pore model), every bounded influent history without negative concentrations and with a total bounded away from zero, every period, every start at capacity with presaturant, every axial grid, every time of the exact solution", "why_tests_cant": "Runs show a few cycles of a few influents; the statement is for every influent and period and bounds all later cycles", "anchors": ["IonExchangeModel/ixpy/hsdmix.py: HSDMIX.solve diffun, calc_Ceq", "IonExchangeModel/ixpy/psdmix.py: PSDMIX.solve diffun, calc_Ceq"]}
{"id": "C204", "title": "At the inlet of a carbon bed more in the water means more on the carbon, and errors of the influent grow no faster than they are fed", "statement": "For one compound: if one influent is never above another and the grains at the inlet start with no more, they never hold more at any radial point. If fouling only takes capacity away, the influent never exceeds some concentration and the grains start at most in equilibrium with it, they never hold more than that. Fresh grains fed a constant influent, with fouling and tortuosity constant, never lose anything they took up, and unfouled they come as near to equilibrium with the influent as one likes, after a time that depends only on the column, the influent and how near; and grains in equilibrium with water holding at least as much as that influent never take up more. And if two influents never differ by more than eps, the amounts in the grains at the inlet, compared point by point, differ by no more than at the start plus a constant times eps times the elapsed time; with the same influent two grains never get further apart. The constant depends only on the column.", "quantifier": "every granular-carbon column with one compound on two radial points, any Freundlich exponent, fouling history and tortuosity, surface diffusion slower than pore diffusion, every pair of influent tables, every pair of starting loadings, every axial grid and number of elements, every time of the exact solution", "why_tests_cant": "The order and the bound must hold for every pair of influents, starts and times; the isotherm is nonlinear with unbounded slope", "anchors": ["PSDM/psdm/PSDM.py: run_psdm, diffun"]}
