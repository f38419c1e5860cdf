{
 "claims": [
  {
   "property": "C01",
   "status": "proved",
   "theorems": [
    "C01_length_consistent",
    "C01_volume_consistent",
    "C01_time_consistent",
    "C01_area_consistent",
    "C01_weight_consistent",
    "C01_concentration_consistent"
   ],
   "note": "For every accepted pair/triple of units; concentration for every non-zero MW and valence."
  },
  {
   "property": "C02",
   "status": "partial",
   "theorems": [
    "C02_length_physical",
    "C02_volume_physical",
    "C02_time_physical",
    "C02_area_physical",
    "C02_weight_physical",
    "C02_concentration_physical_partial",
    "C02_mgN_refuted",
    "C02_length_spelling",
    "C02_volume_spelling",
    "C02_time_spelling",
    "C02_area_spelling",
    "C02_weight_spelling",
    "C02_metric_exact",
    "C02_concentration_exact_partial"
   ],
   "note": "The full statement is false of the code for one unit: 'mg as N' uses 14.001 for nitrogen, more than 4e-4 off (C02_mgN_refuted). Every other accepted unit is proved within 2e-5, metric units, times and amounts of substance exactly; spellings proved identical."
  },
  {
   "property": "C03",
   "status": "proved",
   "theorems": [
    "C03_length_guarded",
    "C03_volume_guarded",
    "C03_time_guarded",
    "C03_area_guarded",
    "C03_weight_guarded",
    "C03_concentration_guarded"
   ],
   "note": "Every unit string and every finite sequence of typed answers; an exhausted terminal is EOFError."
  },
  {
   "property": "C04",
   "status": "proved",
   "theorems": [
    "C04_flow",
    "C04_flow_gpm",
    "C04_velocity",
    "C04_density",
    "C04_diffusivity",
    "C04_capacity_mass",
    "C04_capacity_volume"
   ],
   "note": "Every compound unit a/b with accepted parts, plus gpm. The spelling of the input unit reported back may be rewritten by the code, the factor is not affected."
  },
  {
   "property": "C05",
   "status": "proved",
   "theorems": [
    "C05_unit_independence",
    "C05_converted_value",
    "C05_scalar_value"
   ],
   "note": "conv_params_data on numeric rows with accepted units (after lower-casing), any order of rows, any subset of parameters; same outcome including failures."
  },
  {
   "property": "C06",
   "status": "proved",
   "theorems": [
    "C06_velocity_from_flow",
    "C06_velocity_given"
   ],
   "note": "For every sheet that converts; velocity in cm/s is flow (cm3/s) over pi d^2/4 (cm2)."
  },
  {
   "property": "C07",
   "status": "proved",
   "theorems": [
    "C07_capacity_from_mass",
    "C07_capacity_from_filter",
    "C07_capacity_from_resin",
    "C07_capacity_missing"
   ],
   "note": "Qm*RHOP, Qf/(1-EBED) and, through the loader, Q; an incomplete specification never yields a result (UnboundLocalError)."
  },
  {
   "property": "C08",
   "status": "proved",
   "theorems": [
    "C08_loaded_in_meq",
    "C08_round_trip",
    "C08_saved_in_requested_unit"
   ],
   "note": "load_data then save_results for every ion table with accepted units, non-zero MW and valence; requested unit or own unit. The alkalinity case of loading is C09."
  },
  {
   "property": "C09",
   "status": "proved",
   "theorems": [
    "C09_fraction_range",
    "C09_fraction_equilibrium",
    "C09_speciation",
    "C09_bicarbonate_ion"
   ],
   "note": "Fraction from the carbonate equilibrium with the code's two constants; the loaded column is the fraction times the alkalinity in meq; other columns untouched up to their own conversion."
  },
  {
   "property": "C10",
   "status": "partial",
   "theorems": [
    "C10_valence_order_partial",
    "C10_valence_order_last_partial",
    "C10_valence_order_refuted"
   ],
   "note": "The full statement is false of the code when alkalinity is speciated: valences are captured before the row is moved (C10_valence_order_refuted). Proved when nothing is speciated and when the alkalinity row is last with valence 1."
  },
  {
   "property": "C11",
   "status": "partial",
   "theorems": [
    "C11_coefficients_converted_partial",
    "C11_coefficients_as_written",
    "C11_coefficients_converted_refuted"
   ],
   "note": "The full statement is false of the code: the number is copied as written (C11_coefficients_as_written, C11_coefficients_converted_refuted). Proved when the sheet uses the solver's own unit."
  },
  {
   "property": "C12",
   "status": "proved",
   "theorems": [
    "C12_separation_factor_law",
    "C12_unique",
    "C12_used_without_divalents"
   ],
   "note": "Sum, pairwise separation-factor law and uniqueness for every number of ions; calc_Ceq takes this branch exactly when no ion is divalent."
  },
  {
   "property": "C13",
   "status": "partial",
   "theorems": [
    "C13_mass_action_partial",
    "C13_unique",
    "C13_batch_partial",
    "C13_batch_no_divalent_on_resin_refuted",
    "C13_divalent_presaturant_refuted"
   ],
   "note": "Proved whenever the presaturant is monovalent with positive loading (columns: any amount of divalents, including none; batch: some divalent loading). The full statement is false of the code for the batch classes when no divalent is on the resin (C13_batch_no_divalent_on_resin_refuted) and for a divalent presaturant (C13_divalent_presaturant_refuted)."
  },
  {
   "property": "C14",
   "status": "proved",
   "theorems": [
    "C14_resin_rates_sum_to_zero",
    "C14_resin_total_constant",
    "C14_resin_total_is_capacity"
   ],
   "note": "Both column classes, every grid, every collocation matrices; trajectories are exact solutions of the model's ODE (the numerical integrator is not modelled)."
  },
  {
   "property": "C15",
   "status": "proved",
   "theorems": [
    "C15_only_advection",
    "C15_uniform_total_unchanged",
    "C15_total_follows_inlet"
   ],
   "note": "Rate statement for any matrices; uniform-total and trajectory statements for the matrices the code builds."
  },
  {
   "property": "C16",
   "status": "proved",
   "theorems": [
    "C16_bead_gains_film_flux",
    "C16_slice_balance"
   ],
   "note": "Both column classes; for the presaturant the flux is minus the sum of the others (C15)."
  },
  {
   "property": "C17",
   "status": "proved",
   "theorems": [
    "C17_batch_mass_conserved",
    "C17_loaded_equals_removed"
   ],
   "note": "Both batch classes; trajectories in the exact-solution sense. Radial root finder assumed to return increasing points in (0,1)."
  },
  {
   "property": "C18",
   "status": "proved",
   "theorems": [
    "C18_equilibrium_is_stationary",
    "C18_equilibrium_history",
    "C18_every_run_stays"
   ],
   "note": "Both column classes, both advection operators, mono- and divalent equilibria with a monovalent presaturant."
  },
  {
   "property": "C19",
   "status": "partial",
   "theorems": [
    "C19_batch_start_monovalent",
    "C19_batch_start_total",
    "C19_batch_start_pure_refuted",
    "C19_batch_start_total_refuted",
    "C19_presaturated_start",
    "C19_supplied_distribution_partial",
    "C19_zero_distribution_refuted"
   ],
   "note": "Proved for runs without a distribution and for distributions with a non-zero entry; a supplied distribution of zeros is silently ignored (C19_zero_distribution_refuted). Batch starts: pure presaturant without divalents, full with a monovalent presaturant; with divalents the resin is seeded with Q/1000 of each (C19_batch_start_pure_refuted) and a divalent presaturant starts at 0.999 Q (C19_batch_start_total_refuted)."
  },
  {
   "property": "C20",
   "status": "proved",
   "theorems": [
    "C20_piecewise_linear",
    "C20_data_points",
    "C20_between_neighbours",
    "C20_hours_or_days",
    "C20_outside_data_rejected"
   ],
   "note": "scipy's interp1d is modelled; times inside the table, data points, outside the table (ValueError), hours/days."
  },
  {
   "property": "C21",
   "status": "proved",
   "theorems": [
    "C21_sparsity_sound"
   ],
   "note": "Both column classes, every grid size."
  },
  {
   "property": "C22",
   "status": "proved",
   "theorems": [
    "C22_sparsity_sound",
    "C22_indexing"
   ],
   "note": "Every entry the declared matrix leaves zero is a true independence; solve_ivp uses it for BDF."
  },
  {
   "property": "C23",
   "status": "proved",
   "theorems": [
    "C23_derivatives_exact",
    "C23_axial_grid_exact",
    "C23_constant_profiles"
   ],
   "note": "First and second derivative matrices are exact on polynomials of degree < n for any distinct grid; root finder roots_sh_legendre is a parameter assumed to return increasing points inside (0,1)."
  },
  {
   "property": "C24",
   "status": "proved",
   "theorems": [
    "C24_radial_exact",
    "C24_radial_grid_exact",
    "C24_uniform_bead_no_diffusion"
   ],
   "note": "Gradient and a-dimensional Laplacian exact on even polynomials, any geometry; roots_sh_jacobi is a parameter assumed to return increasing points inside (0,1)."
  },
  {
   "property": "C25",
   "status": "proved",
   "theorems": [
    "C25_weights",
    "C25_sphere_weights"
   ],
   "note": "Weights positive, a*sum(W*k)=k; sphere weights returned by build_collocation sum to 1/3."
  },
  {
   "property": "C26",
   "status": "proved",
   "theorems": [
    "C26_grid",
    "C26_inlet_row",
    "C26_piecewise_exact",
    "C26_polynomial_exact",
    "C26_constants"
   ],
   "note": "Grid shape, zero inlet row, exactness for piecewise polynomials with continuous slope, hence for polynomials and constants."
  },
  {
   "property": "C27",
   "status": "proved",
   "theorems": [
    "C27_bands_are_extremes",
    "C27_order_irrelevant",
    "C27_base_is_unperturbed"
   ],
   "note": "Every list of requests, every integrator that returns one value per ion and reporting time; the run lasts at least 12 hours (otherwise no reporting times are passed on)."
  },
  {
   "property": "C28",
   "status": "partial",
   "theorems": [
    "C28_both_directions",
    "C28_capacity_partial",
    "C28_bed_porosity_partial",
    "C28_flow_partial",
    "C28_bed_length_partial",
    "C28_influent_partial",
    "C28_selectivity_partial",
    "C28_transport_has_no_effect_refuted",
    "C28_requests",
    "C28_transport_missing_refuted",
    "C28_bead_porosity_refuted",
    "C28_capacity_by_mass_refuted",
    "C28_other_presaturant_refuted"
   ],
   "note": "Proved for capacity (given per filter volume), bed porosity, flow, bed length, influent and, when a CHLORIDE row exists, selectivity. The full statement is false of the code: kL, Ds and Dp requests change nothing the solver reads (C28_transport_has_no_effect_refuted), the bead porosity request changes the bed porosity (C28_bead_porosity_refuted), capacity given by resin mass and columns without chloride fail (C28_capacity_by_mass_refuted, C28_other_presaturant_refuted)."
  },
  {
   "property": "C29",
   "status": "partial",
   "theorems": [
    "C29_hours_unchanged_partial",
    "C29_days_same_influent_partial",
    "C29_minutes_refuted"
   ],
   "note": "Proved: unchanged for hours; the same influent (in seconds) for days. The full statement is false of the code for any other time unit: minutes are stretched as days (C29_minutes_refuted)."
  },
  {
   "property": "C30",
   "status": "proved",
   "theorems": [
    "C30_period",
    "C30_bed_volumes",
    "C30_saved_index"
   ],
   "note": "Every accepted period unit, and bed volumes."
  },
  {
   "property": "C31",
   "status": "partial",
   "theorems": [
    "C31_reported_units_partial",
    "C31_lead_lag_reported_units_partial",
    "C31_reported_units_refuted",
    "C31_reported_meq_refuted"
   ],
   "note": "The full statement is false of the code (C31_reported_units_refuted, C31_reported_meq_refuted). Proved for g (any valence) and mg/ug/ng with valence 1; lead-lag version for meq and mg/ug/ng with valence 1."
  },
  {
   "property": "C32",
   "status": "proved",
   "theorems": [
    "C32_values_physical",
    "C32_plain_values",
    "C32_multipliers",
    "C32_keyword_units"
   ],
   "note": "Tolerance 1e-6 (the code's lb/ft3 and gallon constants are rounded); an unknown unit is stored as zero, i.e. never converted (see C66)."
  },
  {
   "property": "C33",
   "status": "proved",
   "theorems": [
    "C33_derived_values_consistent",
    "C33_recomputed"
   ],
   "note": "Positive geometry, flow and density."
  },
  {
   "property": "C34",
   "status": "partial",
   "theorems": [
    "C34_coefficients",
    "C34_never_increases",
    "C34_positive_up_to_horizon_partial",
    "C34_horizon_covers_run",
    "C34_follows_correlation",
    "C34_starts_at_one_partial",
    "C34_other_classes_start_refuted",
    "C34_pfas_start_refuted",
    "C34_positive_beyond_horizon_refuted"
   ],
   "note": "Proved: never increases (all waters, classes, compounds, times); positive up to the tabulated horizon, which covers the run's duration; starts at 1 for eight classes. The full statement is false of the code: other classes and most PFAS start below (or above) 1 (C34_other_classes_start_refuted, C34_pfas_start_refuted) and extrapolation beyond the horizon can go negative (C34_positive_beyond_horizon_refuted)."
  },
  {
   "property": "C35",
   "status": "partial",
   "theorems": [
    "C35_tortuosity",
    "C35_versions_agree_refuted"
   ],
   "note": "Proved: at least 1, initially 1, nondecreasing, and both versions agree up to minute 100756 and from day 70. The full statement is false of the code: just before day 70 the versions differ (C35_versions_agree_refuted)."
  },
  {
   "property": "C36",
   "status": "proved",
   "theorems": [
    "C36_loading_preserved",
    "C36_unique_and_composes"
   ],
   "note": "Positive K, loading and concentration, non-zero exponents."
  },
  {
   "property": "C37",
   "status": "proved",
   "theorems": [
    "C37_bead_gain",
    "C37_inlet_follows_influent",
    "C37_inlet_between_minutes"
   ],
   "note": "Library routines assumed correct: matrix inverse, increasing Legendre roots in (0,1), Jacobi roots orthogonal for r^2(1-r^2)."
  },
  {
   "property": "C38",
   "status": "partial",
   "theorems": [
    "C38_entry_with_labels",
    "C38_succeeds",
    "C38_minimum_partial",
    "C38_small_tables",
    "C38_ties_refuted",
    "C38_perfect_fit_refuted",
    "C38_minimum_refuted"
   ],
   "note": "False of the code as stated: C38_minimum_refuted exhibits a 3 by 17 table of positive errors with a single minimum of 1 for which 10 is returned; C38_ties_refuted: a tied minimum raises TypeError; C38_perfect_fit_refuted: a one-entry table holding 0 raises IndexError. Proved for every table: the result is an entry with its own labels, and positive tables with one least entry always give a result; proved for at most 41 entries (any shape): the result is a least entry. The non-DataFrame branch is not modelled."
  },
  {
   "property": "C39",
   "status": "proved",
   "theorems": [
    "C39_grid_spans_ranges",
    "C39_grid_contains_centre",
    "C39_default_grid"
   ],
   "note": "linspace is modelled; at least two points and a non-degenerate range."
  },
  {
   "property": "C40",
   "status": "partial",
   "theorems": [
    "C40_stops",
    "C40_bounded",
    "C40_on_grid_partial",
    "C40_no_repeat",
    "C40_no_repeat_values",
    "C40_keeps_best",
    "C40_on_grid_refuted",
    "C40_zero_spread_refuted"
   ],
   "note": "Proved: stops, number of simulations, no repeats, least error kept (all landscapes, failing simulations included), and staying on the grid for compounds whose K(1/n) was worked out at construction. The full statement is false of the code: with a user-supplied isotherm table the K factor compounds and the search leaves its grid (C40_on_grid_refuted); the documented default spread 0 fails (C40_zero_spread_refuted). nan sums of squares are not modelled; fouling estimate and spread positive."
  },
  {
   "property": "C41",
   "status": "partial",
   "theorems": [
    "C41_grid_fit_keeps_last_only",
    "C41_parallel_fit_keeps_one_only",
    "C41_grid_fit_refuted",
    "C41_stepwise"
   ],
   "note": "Proved for the stepwise fit (C41_stepwise, any number of distinct compounds). The full statement is false of the code for the grid fits: every simulation resets the table, so only the last compound's fit survives run_all and at most one survives run_all_MP (C41_grid_fit_keeps_last_only, C41_parallel_fit_keeps_one_only), with a two-compound instance in C41_grid_fit_refuted."
  },
  {
   "property": "C42",
   "status": "partial",
   "theorems": [
    "C42_histories_partial",
    "C42_uncertainty",
    "C42_run",
    "C42_fit_restores_backup",
    "C42_fit_after_change_refuted",
    "C42_failed_fit_refuted",
    "C42_failed_uncertainty_refuted"
   ],
   "note": "Proved: every history of successful calls (run, both fits, uncertainty) on a column not modified since construction leaves inputs and derived values unchanged; uncertainty runs restore any column. The full statement is false of the code: a fit puts the construction values back over the user's changes (C42_fit_after_change_refuted, C42_fit_restores_backup), and a run that fails inside a fit or an uncertainty analysis leaves the reduced or perturbed column behind (C42_failed_fit_refuted, C42_failed_uncertainty_refuted)."
  },
  {
   "property": "C43",
   "status": "partial",
   "theorems": [
    "C43_bands_partial",
    "C43_competitive_bands_partial",
    "C43_loading_refuted",
    "C43_competitive_bands_refuted",
    "C43_competitive_results_refuted",
    "C43_pinning_neutral_partial",
    "C43_fouled_refuted"
   ],
   "note": "Proved: compound by compound, the bands are the extremes of base and all requested cases and the base case is stored; in competition the same bands where pandas lets chained assignments through; recorded mass-transfer values fed back change nothing in organic-free water. The full statement is false of the code: the loading request has no effect (C43_loading_refuted), a competitive analysis stores the last case as the results (C43_competitive_results_refuted) and under copy-on-write its bands never widen (C43_competitive_bands_refuted), and in fouled water every case divides the surface diffusivity by 1e10 again (C43_fouled_refuted)."
  },
  {
   "property": "C44",
   "status": "partial",
   "theorems": [
    "C44_overrides_partial",
    "C44_surface_refuted"
   ],
   "note": "Proved for kf and Dp always and for Ds in organic-free water. The full statement is false of the code: in other waters a supplied Ds is divided by 1e10 (C44_surface_refuted)."
  },
  {
   "property": "C45",
   "status": "partial",
   "theorems": [
    "C45_ohashi_partial",
    "C45_film_monotone_partial",
    "C45_flow_monotone",
    "C45_sherwood",
    "C45_ion_exchange_film",
    "C45_diffusivities_positive",
    "C45_ohashi_refuted",
    "C45_ko_refuted"
   ],
   "note": "Proved for all correlations except two, for Schmidt numbers of at least 1, for the coefficient run_psdm uses as a function of flow, and for the ion-exchange estimate. Ohashi's is proved positive and increasing within each of its three ranges. The full statement is false of the code for 'Ohashi et al' (returns a tuple, drops at Re 5.8) and 'Ko et al' (decreases with flow)."
  },
  {
   "property": "C46",
   "status": "partial",
   "theorems": [
    "C46_weights",
    "C46_complies_partial",
    "C46_longest_partial",
    "C46_daily_refuted",
    "C46_many_groups_refuted"
   ],
   "note": "Proved: weights positive, sum one, one per group; with at most five groups of beds and a target that daily changes meet, the blended effluent (continued linearly past max_days, as the code does) is within the target on every day of the returned cycle, it is the returned curve, and for non-decreasing effluents no longer interval of the range complies. The full statement is false of the code: a target that cannot be met gives one day with zero effluent (C46_daily_refuted), and with six groups the search can run off its series and answer max_days unchecked (C46_many_groups_refuted). Days are whole days."
  },
  {
   "property": "C47",
   "status": "partial",
   "theorems": [
    "C47_interpolation",
    "C47_predicted_partial",
    "C47_hazard_partial",
    "C47_hazard_refuted",
    "C47_missing_column_refuted"
   ],
   "note": "Proved for the compounds with their own limit and, when no PFBS breaks through, for the hazard index; daily values lie on the lines between results. The full statement is false of the code: the PFBS share is added to the wrong column (C47_hazard_refuted), and results without PFOA, PFOS or PFBS give an exception (C47_missing_column_refuted). Frames without missing values, non-negative last day, no column called HI; chained assignments taken to reach the frame."
  },
  {
   "property": "C48",
   "status": "partial",
   "theorems": [
    "C48_study_partial",
    "C48_specs_changed_refuted",
    "C48_longer_refuted"
   ],
   "note": "Proved for contact times up to the column's own. The full statement is false of the code: longer contact times shrink the bed (C48_longer_refuted), and the specification is left at the last study point (C48_specs_changed_refuted)."
  },
  {
   "property": "C49",
   "status": "proved",
   "theorems": [
    "C49_mass_balance",
    "C49_waves",
    "C49_equilibrium",
    "C49_units",
    "C49_times"
   ],
   "note": "Integral balance for whatever the root finders return (C49_mass_balance; nonzero holdups). With exact roots also the jump condition at every front, the front velocity from its own zone (C49_waves) and equilibrium in every zone (C49_equilibrium). Convergence of scipy's root is not modelled."
  },
  {
   "property": "C50",
   "status": "proved",
   "theorems": [
    "C50_mass_units",
    "C50_one_compound",
    "C50_alike",
    "C50_capacity"
   ],
   "note": "Positive molecular weights. Also: alike compounds share one isotherm (C50_alike), and the reported single-solute capacity is the carbon that holds the compound of a litre (C50_capacity)."
  },
  {
   "property": "C51",
   "status": "proved",
   "theorems": [
    "C51_large_column",
    "C51_entries",
    "C51_scaling",
    "C51_bed_volumes"
   ],
   "note": "Known entries and positive contact time, velocity and sizes. Also that the small column treats as many bed volumes as the large one (C51_bed_volumes). Sizes in the unit the entries are stored in; how they get there is C51_entries and C52."
  },
  {
   "property": "C52",
   "status": "partial",
   "theorems": [
    "C52_explicit_units_partial",
    "C52_mesh_partial",
    "C52_large_refuted",
    "C52_small_refuted"
   ],
   "note": "Proved: explicit units agree with one another, a mesh agrees with its mean size as a number. The full statement is false of the code: [x, 'mm'] is stored as x/10 in the large column (C52_large_refuted) and as x/100 in the small one (C52_small_refuted), a number as x."
  },
  {
   "property": "C53",
   "status": "partial",
   "theorems": [
    "C53_carbon",
    "C53_carbon_succeeds",
    "C53_short_interval_refuted",
    "C53_resin",
    "C53_resin_succeeds"
   ],
   "note": "Proved for every swap interval on the quarter-day grid for which the run completes, with any number of loops and any response; whole days from ten on do complete (C53_carbon_succeeds, C53_resin_succeeds). The full statement is false of the code: with shorter intervals the run fails (C53_short_interval_refuted)."
  },
  {
   "property": "C54",
   "status": "partial",
   "theorems": [
    "C54_names_partial",
    "C54_alias_refuted",
    "C54_compounds_refuted"
   ],
   "note": "Proved for every string but gac-iex, ix-iex and iex-ix, with the default compounds. The full statement is false of the code: gac-iex is refused (C54_alias_refuted) and a list of compounds makes the mixed runs fail (C54_compounds_refuted). Objects built without errors only."
  },
  {
   "property": "C55",
   "status": "proved",
   "theorems": [
    "C55_conservation",
    "C55_equilibrium",
    "C55_every_run_stays"
   ],
   "note": "Along every trajectory of the semi-discrete model, for any grid and weights, liquid content plus bead content is constant; equilibrium states are stationary. The ODE solver itself is a parameter."
  },
  {
   "property": "C56",
   "status": "partial",
   "theorems": [
    "C56_multi_dose_partial",
    "C56_next_run_refuted",
    "C56_waiting_time_partial",
    "C56_waiting_time_dose_refuted",
    "C56_refused_refuted",
    "C56_differs_refuted"
   ],
   "note": "Proved: dose, duration, conversion factors and compound inputs are put back by multi-dose studies; duration, table and factors by completed waiting-time studies. The full statement is false of the code: values derived from the dose stay those of the last dose and the next run is a run at it (C56_next_run_refuted, C56_differs_refuted), waiting-time studies leave the last dose (C56_waiting_time_dose_refuted), a refused study leaves its duration (C56_refused_refuted)."
  },
  {
   "property": "C57",
   "status": "proved",
   "theorems": [
    "C57_volume",
    "C57_given",
    "C57_format",
    "C57_volume_suffices"
   ],
   "note": "For every sheet with positive numbers; also the dimensions given are kept, and a volume with one dimension gives all of them."
  },
  {
   "property": "C58",
   "status": "proved",
   "theorems": [
    "C58_reported",
    "C58_starts"
   ],
   "note": "Reported concentrations in ug/L and all derived values coincide for two descriptions of the same water; a run whose solver starts at one starts at the influent concentration."
  },
  {
   "property": "C59",
   "status": "proved",
   "theorems": [
    "C59_time_scale_immaterial",
    "C59_scale",
    "C59_reported_end_time",
    "C59_reported_times_in_seconds"
   ],
   "note": "Trajectories in the exact-solution sense; reporting times whose entries are all zero are ignored by the code and excluded."
  },
  {
   "property": "C60",
   "status": "proved",
   "theorems": [
    "C60_resin_volume"
   ],
   "note": "Sheets with neither v nor flrt; numeric rows with accepted units."
  },
  {
   "property": "C61",
   "status": "proved",
   "theorems": [
    "C61_surface_diffusion",
    "C61_pore_and_surface_diffusion",
    "C61_batch_surface_diffusion",
    "C61_batch_pore_and_surface_diffusion"
   ],
   "note": "Both column classes and both batch classes; the profile is the unique even polynomial through the grid values, so every state is covered. Root finder assumed to return increasing points in (0,1)."
  },
  {
   "property": "C62",
   "status": "proved",
   "theorems": [
    "C62_linear_profile"
   ],
   "note": "Both classes and both axial operators; linear profiles (polynomial exactness of the operators themselves is C23 and C26)."
  },
  {
   "property": "C63",
   "status": "proved",
   "theorems": [
    "C63_batch_totals_kept"
   ],
   "note": "The exchange equilibria have solutions along the run (loadings and concentrations may be negative); that is a hypothesis. With a divalent presaturant the start is not full (see C19)."
  },
  {
   "property": "C64",
   "status": "proved",
   "theorems": [
    "C64_batch_equilibrium_is_stationary",
    "C64_liquid_moves_towards_equilibrium",
    "C64_every_run_stays"
   ],
   "note": "Divalents must be present on the resin, otherwise the code's quadratic divides by zero (C13)."
  },
  {
   "property": "C65",
   "status": "partial",
   "theorems": [
    "C65_hours_reported_inside_partial",
    "C65_days_refuted",
    "C65_fractional_hours_refuted"
   ],
   "note": "Proved for influents in hours whose length is not within the last hour before a multiple of 12. The full statement is false of the code: influents in days always fail (C65_days_refuted), as do hour records of e.g. 23.5 h (C65_fractional_hours_refuted)."
  },
  {
   "property": "C66",
   "status": "partial",
   "theorems": [
    "C66_missing_unit_refused_partial",
    "C66_unknown_length_refuted",
    "C66_milligrams_refuted",
    "C66_hours_refuted"
   ],
   "note": "Proved for empty unit cells of the seven dimensional rows. The full statement is false of the code: an unknown length is read as 0 (C66_unknown_length_refuted), 'mg' as ng (C66_milligrams_refuted), 'hours' as minutes (C66_hours_refuted)."
  },
  {
   "property": "C67",
   "status": "proved",
   "theorems": [
    "C67_water",
    "C67_viscosity",
    "C67_packages_agree"
   ],
   "note": ""
  },
  {
   "property": "C68",
   "status": "proved",
   "theorems": [
    "C68_axial_exact",
    "C68_radial_exact",
    "C68_surface_weight_positive"
   ],
   "note": ""
  },
  {
   "property": "C69",
   "status": "partial",
   "theorems": [
    "C69_film_rate_partial",
    "C69_film_rate_refuted",
    "C69_diffusion_partial"
   ],
   "note": "The full statement is false of the code: all rates are multiplied by dgt/(1+dgt) (C69_film_rate_refuted; time is scaled with 1+dgt, coefficients with dgt). Proved: film transfer and intraparticle diffusion equal the stated law times that factor; in organic-free water with tortuosity other than 1 there is a further spurious surface term. Diffusion needs Ds different from Dp (otherwise the code divides by zero) and is stated at whole minutes."
  },
  {
   "property": "C70",
   "status": "proved",
   "theorems": [
    "C70_local_balance",
    "C70_trajectory_balance"
   ],
   "note": "The inlet node has no liquid balance of its own: its liquid entry is frozen and the influent is used instead."
  },
  {
   "property": "C71",
   "status": "proved",
   "theorems": [
    "C71_ideal_adsorbed",
    "C71_freundlich"
   ],
   "note": "Non-negative loadings, at least one positive; at whole minutes (the code interpolates the fouling power in between)."
  },
  {
   "property": "C72",
   "status": "proved",
   "theorems": [
    "C72_equilibrium_is_steady",
    "C72_every_run_stays"
   ],
   "note": ""
  },
  {
   "property": "C73",
   "status": "proved",
   "theorems": [
    "C73_effluent_location",
    "C73_reported_units",
    "C73_reported_nonneg"
   ],
   "note": "At whole minutes."
  },
  {
   "property": "C74",
   "status": "proved",
   "theorems": [
    "C74_stops_at_local_minimum"
   ],
   "note": "nan sums of squares are not modelled."
  },
  {
   "property": "C75",
   "status": "partial",
   "theorems": [
    "C75_stores_simulated_pair",
    "C75_exhaustive_minimum_partial",
    "C75_exhaustive_succeeds",
    "C75_no_table_stores_one",
    "C75_parallel_with_table_refuted",
    "C75_parallel_partial",
    "C75_staged_refuted",
    "C75_no_table_refuted"
   ],
   "note": "Proved with a supplied isotherm table: a simulated pair is stored (both modes), and in the exhaustive mode on at most 41 pairs a least one (larger grids inherit C38's defect); the fit goes through for positive errors with one least. The full statement is false of the code: without a table 1/n = 1 is always stored (C75_no_table_stores_one, C75_no_table_refuted), the parallel fit ignores its grid when a table was supplied (C75_parallel_with_table_refuted), and the staged mode can store a worse pair than one it simulated (C75_staged_refuted)."
  },
  {
   "property": "C76",
   "status": "partial",
   "theorems": [
    "C76_best_factor_partial",
    "C76_computed_table_refuted"
   ],
   "note": "Proved: a fit that returns gives the best of the factors tried. The full statement is false of the code: with a computed isotherm table, which has no MolarVol row, the fit always raises KeyError and leaves one compound (C76_computed_table_refuted)."
  },
  {
   "property": "C77",
   "status": "proved",
   "theorems": [
    "C77_bounds"
   ],
   "note": "Frames without missing values, same days and compounds in all three."
  },
  {
   "property": "C78",
   "status": "proved",
   "theorems": [
    "C78_plotted_curve"
   ],
   "note": "The interpolation is the piecewise linear one of the library; at the arrival times themselves the curve jumps."
  },
  {
   "property": "C79",
   "status": "proved",
   "theorems": [
    "C79_lengths",
    "C79_flows",
    "C79_masses",
    "C79_times",
    "C79_velocities",
    "C79_densities"
   ],
   "note": "ASCII lower-casing. The pound per cubic foot is a rounded literal: within 1e-12."
  },
  {
   "property": "C80",
   "status": "proved",
   "theorems": [
    "C80_carbon_resin",
    "C80_resin_carbon"
   ],
   "note": "Of the runs that complete. Feeds are lifted to 1e-16 (resin) and 1e-8 (carbon) where they are lower. A raw series shorter than the run is replaced by its mean (on_times in the model)."
  },
  {
   "property": "C81",
   "status": "partial",
   "theorems": [
    "C81_resin_partial",
    "C81_carbon_partial",
    "C81_history_refuted"
   ],
   "note": "Proved for two resin vessels; for two carbon vessels up to the flow, which a mixed run may have changed to the resin's. The full statement is false of the code: a mixed run leaves its own feed behind as the resin's influent (C81_history_refuted)."
  },
  {
   "property": "C82",
   "status": "partial",
   "theorems": [
    "C82_use_ix_partial",
    "C82_use_gac_refuted",
    "C82_number_refuted",
    "C82_differ_refuted"
   ],
   "note": "Proved: 'use ix', the default with resin first. The full statement is false of the code: 'use gac', the default with carbon first, changes nothing (C82_use_gac_refuted, C82_differ_refuted); a number fails (C82_number_refuted); lists are ignored (in the model)."
  },
  {
   "property": "C83",
   "status": "partial",
   "theorems": [
    "C83_monovalent_partial",
    "C83_charge_refuted",
    "C83_carbon_nitrogen_refuted"
   ],
   "note": "Proved for ions of charge one in meq, mg, ug or ng. The full statement is false of the code: other charges come back multiplied by the charge (C83_charge_refuted), mgC and mgN are not converted back (C83_carbon_nitrogen_refuted)."
  },
  {
   "property": "C84",
   "status": "partial",
   "theorems": [
    "C84_linear_partial",
    "C84_concentration_refuted"
   ],
   "note": "Proved for a linear isotherm. The full statement is false of the code for every other isotherm: the equations are solved for an influent of 1 and the answer multiplied (C84_concentration_refuted)."
  },
  {
   "property": "C85",
   "status": "partial",
   "theorems": [
    "C85_water_density_partial",
    "C85_dose_refuted"
   ],
   "note": "Proved: the balance holds with the dose times carbon density over water density. The full statement is false of the code unless the two agree (C85_dose_refuted)."
  },
  {
   "property": "C86",
   "status": "partial",
   "theorems": [
    "C86_without_volume_partial",
    "C86_exception_refuted",
    "C86_count_refuted"
   ],
   "note": "Proved for contactors described without a volume row. The full statement is false of the code: a length found from the volume is subtracted though never counted (C86_count_refuted), and without flow or length row there is an exception instead (C86_exception_refuted)."
  },
  {
   "property": "C87",
   "status": "proved",
   "theorems": [
    "C87_reached",
    "C87_blank"
   ],
   "note": "For strictly falling curves with at least two points; blanks characterised for all curves."
  },
  {
   "property": "C88",
   "status": "proved",
   "theorems": [
    "C88_flow_through",
    "C88_closed_vessel"
   ],
   "note": "Both reference curves, for all times."
  },
  {
   "property": "C89",
   "status": "proved",
   "theorems": [
    "C89_units"
   ],
   "note": "All five tables: exactly the names listed, each with its true size."
  },
  {
   "property": "C90",
   "status": "partial",
   "theorems": [
    "C90_length_given_partial",
    "C90_volume_refuted"
   ],
   "note": "Proved when the length is given. The full statement is false of the code: with the length found from height and volume the aspect ratio is dropped (C90_volume_refuted)."
  },
  {
   "property": "C91",
   "status": "partial",
   "theorems": [
    "C91_rows_partial",
    "C91_complete_rows_partial",
    "C91_other_compound_refuted"
   ],
   "note": "Proved for the rows and for times at which every compound of the stream was measured. The full statement is false of the code: where another compound was not measured the reading is replaced by an interpolated value (C91_other_compound_refuted)."
  },
  {
   "property": "C92",
   "status": "proved",
   "theorems": [
    "C92_gaps"
   ],
   "note": "Interpolation and extrapolation at every positive time, both streams."
  },
  {
   "property": "C93",
   "status": "partial",
   "theorems": [
    "C93_positive_times_partial",
    "C93_late_start_refuted",
    "C93_missing_start_refuted"
   ],
   "note": "Proved for all positive times, and for time zero when both streams were fully measured then. The full statement is false of the code: records that start later get a zero influent at time zero (C93_late_start_refuted), and an influent first measured after an effluent of time zero is missing there (C93_missing_start_refuted)."
  },
  {
   "property": "C94",
   "status": "proved",
   "theorems": [
    "C94_K"
   ],
   "note": "For both ways of finding the breakthrough time."
  },
  {
   "property": "C95",
   "status": "partial",
   "theorems": [
    "C95_other_exponents_partial",
    "C95_forced_refuted"
   ],
   "note": "Proved for estimated breakthrough. The full statement is false of the code with prescribed breakthrough days (break_type force): the function offered is one everywhere (C95_forced_refuted)."
  },
  {
   "property": "C96",
   "status": "proved",
   "theorems": [
    "C96_loading"
   ],
   "note": "Numerical integration is assumed exact on the two streams concerned. The points that fits add are characterised."
  },
  {
   "property": "C97",
   "status": "partial",
   "theorems": [
    "C97_crossing_partial",
    "C97_average_partial",
    "C97_immediate_refuted",
    "C97_single_reading_refuted"
   ],
   "note": "Proved for crossings from day 1 on with at least two positive effluent readings. The full statement is false of the code: a crossing on day 0 is taken as breakthrough at the end of the record (C97_immediate_refuted), and with a single positive effluent reading the end of the data is used whatever its height (C97_single_reading_refuted)."
  },
  {
   "property": "C98",
   "status": "partial",
   "theorems": [
    "C98_no_breakthrough_partial",
    "C98_small_unit_refuted"
   ],
   "note": "Proved without effluent up to 2000 time units. The full statement is false of the code: times over 2000 are dropped in any unit, so a week in minutes gives the smallest loading (C98_small_unit_refuted)."
  },
  {
   "property": "C99",
   "status": "proved",
   "theorems": [
    "C99_fouling"
   ],
   "note": "Any fouling function with a positive lower bound."
  },
  {
   "property": "C100",
   "status": "partial",
   "theorems": [
    "C100_mass_transfer_partial",
    "C100_text_refuted"
   ],
   "note": "Proved when the row has numbers only. The full statement is false of the code: a text under one compound drops the numbers of the compounds to its right (C100_text_refuted)."
  },
  {
   "property": "C101",
   "status": "partial",
   "theorems": [
    "C101_readings_partial",
    "C101_tables_partial",
    "C101_between_refuted"
   ],
   "note": "Proved when all readings are at whole units of time. The full statement is false of the code: readings between whole units are lost (C101_between_refuted)."
  },
  {
   "property": "C102",
   "status": "proved",
   "theorems": [
    "C102_rows"
   ],
   "note": "For every capacity estimate, search and simulation, with 2000 results as model_uncertainty makes them."
  },
  {
   "property": "C103",
   "status": "partial",
   "theorems": [
    "C103_effluent_partial",
    "C103_names_refuted"
   ],
   "note": "Proved when the carbon is named like the effluent, as the application does. The full statement is false of the code: with any other name every fit fails with a KeyError (C103_names_refuted)."
  },
  {
   "property": "C104",
   "status": "partial",
   "theorems": [
    "C104_reported_partial",
    "C104_fit_reported_partial",
    "C104_raised_refuted",
    "C104_fit_raised_refuted"
   ],
   "note": "Proved when the names, parameters of every compound and an influent time are present. The full statement is false of the code: missing isotherm parameters raise, and so does an unreadable number in a fit (C104_raised_refuted, C104_fit_raised_refuted)."
  },
  {
   "property": "C105",
   "status": "proved",
   "theorems": [
    "C105_freundlich",
    "C105_langmuir",
    "C105_redlich_peterson"
   ],
   "note": "Three theorems, one per isotherm, for every solver that finds a least-squares fit among non-negative parameters; two different concentrations are enough for Freundlich and Langmuir, three for Redlich-Peterson."
  },
  {
   "property": "C106",
   "status": "partial",
   "theorems": [
    "C106_errors_partial",
    "C106_title_refuted"
   ],
   "note": "Proved for the returned frame. The full statement is false of the code: the title shows the first parameter's error beside the second (C106_title_refuted)."
  },
  {
   "property": "C107",
   "status": "partial",
   "theorems": [
    "C107_loadings_partial",
    "C107_second_call_refuted"
   ],
   "note": "Proved for a frame without a column q, and that the other columns are left alone. The full statement is false of the code: a call writes a column q to the caller's frame and a later call uses it after the concentrations have changed (C107_second_call_refuted)."
  },
  {
   "property": "C108",
   "status": "proved",
   "theorems": [
    "C108_bands",
    "C108_shape"
   ],
   "note": "For every Student quantile that is not negative."
  },
  {
   "property": "C109",
   "status": "partial",
   "theorems": [
    "C109_known_partial",
    "C109_unknown_refuted"
   ],
   "note": "Proved for the three names. The full statement is false of the code: another name prints a warning and then raises UnboundLocalError (C109_unknown_refuted)."
  },
  {
   "property": "C110",
   "status": "partial",
   "theorems": [
    "C110_score_partial",
    "C110_peaks_ignored_refuted"
   ],
   "note": "Proved: not negative, zero exactly when all days or all peaks are reproduced. The full statement is false of the code, which multiplies the two errors (C110_peaks_ignored_refuted)."
  },
  {
   "property": "C111",
   "status": "partial",
   "theorems": [
    "C111_last_trial_partial",
    "C111_perturbed_refuted"
   ],
   "note": "Proved when the returned point was the last one tried. The full statement is false of the code: it leaves the last trial (C111_perturbed_refuted)."
  },
  {
   "property": "C112",
   "status": "partial",
   "theorems": [
    "C112_records_partial",
    "C112_short_first_refuted"
   ],
   "note": "Proved when all records end at the same time. The full statement is false of the code: the last time of the first record is used for all (C112_short_first_refuted)."
  },
  {
   "property": "C113",
   "status": "partial",
   "theorems": [
    "C113_measured_partial",
    "C113_cells_partial",
    "C113_carbons_partial",
    "C113_missing_refuted"
   ],
   "note": "Proved for measured values, for which cells exist and for the carbons. The full statement is false of the code: missing values become zero (C113_missing_refuted)."
  },
  {
   "property": "C114",
   "status": "partial",
   "theorems": [
    "C114_same_partial",
    "C114_limit_refuted"
   ],
   "note": "Proved when no mean equals a reporting limit other than zero, with a pandas that lets chained assignments through. The full statement is false of the code: a mean equal to the limit is kept by one and made zero by the other (C114_limit_refuted)."
  },
  {
   "property": "C115",
   "status": "proved",
   "theorems": [
    "C115_selected",
    "C115_missing"
   ],
   "note": ""
  },
  {
   "property": "C116",
   "status": "proved",
   "theorems": [
    "C116_affine",
    "C116_limit",
    "C116_independent",
    "C116_sparsity"
   ],
   "note": ""
  },
  {
   "property": "C117",
   "status": "partial",
   "theorems": [
    "C117_restored_partial",
    "C117_index_refuted",
    "C117_failure_refuted"
   ],
   "note": "Proved for the settings, and for the data when they reach the last day. The full statement is false of the code: the last time of the caller's data is overwritten (C117_index_refuted), and a failing run leaves the search off and the compounds replaced (C117_failure_refuted)."
  },
  {
   "property": "C118",
   "status": "partial",
   "theorems": [
    "C118_stored_partial",
    "C118_ds_partial",
    "C118_ds_no_search_refuted"
   ],
   "note": "Proved for isotherm fits and for surface-diffusion fits with the search on. The full statement is false of the code: with the search off the surface-diffusion study raises UnboundLocalError at the first compound (C118_ds_no_search_refuted)."
  },
  {
   "property": "C119",
   "status": "proved",
   "theorems": [
    "C119_loaded_in_meq",
    "C119_saved",
    "C119_round_trip"
   ],
   "note": ""
  },
  {
   "property": "C120",
   "status": "partial",
   "theorems": [
    "C120_columns_partial",
    "C120_batch_lost",
    "C120_batch_refuted"
   ],
   "note": "Proved for columns. The full statement is false of the code: a batch reactor saves in the sheet's own unit even when it was corrected at the prompt, so saving ends the program and the run is lost (C120_batch_lost, C120_batch_refuted)."
  },
  {
   "property": "C121",
   "status": "proved",
   "theorems": [
    "C121_mode",
    "C121_other_mode",
    "C121_run"
   ],
   "note": ""
  },
  {
   "property": "C122",
   "status": "proved",
   "theorems": [
    "C122_same_operators",
    "C122_axial_exact",
    "C122_radial_exact",
    "C122_weights"
   ],
   "note": ""
  },
  {
   "property": "C123",
   "status": "partial",
   "theorems": [
    "C123_same_rates_partial",
    "C123_liquid_rates_partial",
    "C123_same_start_partial",
    "C123_diffusivity_used_partial",
    "C123_rates_refuted",
    "C123_sheets_refuted",
    "C123_grids_refuted",
    "C123_runs_partial"
   ],
   "note": "Proved for the liquid, and for the resin when all ions but the presaturant share their diffusivities. The full statement is false of the code: the gel solver recycles the diffusivities down the wrong axis (C123_diffusivity_used_partial says what it uses), so rates differ as soon as two ions differ (C123_rates_refuted), and sheets the package accepts stop with an array error (C123_sheets_refuted)."
  },
  {
   "property": "C124",
   "status": "proved",
   "theorems": [
    "C124_resin_rates_sum_to_zero",
    "C124_resin_total_is_capacity",
    "C124_check_accepts",
    "C124_slice_balance"
   ],
   "note": ""
  },
  {
   "property": "C125",
   "status": "partial",
   "theorems": [
    "C125_own_influent_partial",
    "C125_names_checked_partial",
    "C125_names_agree_partial",
    "C125_own_influent_refuted"
   ],
   "note": "Proved when the influent columns are in the order of the ion sheet, and the comparison of names is exact. The full statement is false of the code: columns are taken by position, so columns in another order pass the check and swap the influents (C125_own_influent_refuted)."
  },
  {
   "property": "C126",
   "status": "proved",
   "theorems": [
    "C126_bed_and_beads",
    "C126_velocity",
    "C126_ions",
    "C126_bed_volume"
   ],
   "note": ""
  },
  {
   "property": "C127",
   "status": "partial",
   "theorems": [
    "C127_to_meq_partial",
    "C127_to_mgl_partial",
    "C127_results_mgl_partial",
    "C127_plotted",
    "C127_to_meq_refuted"
   ],
   "note": "Proved for all units except meq/L on the way in. The full statement is false of the code: influents in meq/L are multiplied by valence over molecular weight once more (C127_to_meq_refuted)."
  },
  {
   "property": "C128",
   "status": "partial",
   "theorems": [
    "C128_output_units_partial",
    "C128_pfoa_partial",
    "C128_saving_refuted",
    "C128_input_units_refuted"
   ],
   "note": "Proved for output units and for PFOA. The full statement is false of the code: without PFOA nothing can be saved (C128_saving_refuted), and other ions are saved in meq/L whatever their unit (C128_input_units_refuted)."
  },
  {
   "property": "C129",
   "status": "partial",
   "theorems": [
    "C129_plot_time_partial",
    "C129_report_times_partial",
    "C129_influent_axis_partial",
    "C129_influent_axis_refuted"
   ],
   "note": "Proved for results and for influents in hr, day and Days. The full statement is false of the code: influents in every other unit are drawn as if given in days (C129_influent_axis_refuted)."
  },
  {
   "property": "C130",
   "status": "proved",
   "theorems": [
    "C130_speciation",
    "C130_alkalinity_balance",
    "C130_shown",
    "C130_increasing"
   ],
   "note": ""
  },
  {
   "property": "C131",
   "status": "partial",
   "theorems": [
    "C131_correlation_partial",
    "C131_units_refuted"
   ],
   "note": "Proved in cm and cm/s. The full statement is false of the code: units of the bead radius and velocity are ignored (C131_units_refuted)."
  },
  {
   "property": "C132",
   "status": "partial",
   "theorems": [
    "C132_drawn_partial",
    "C132_all_drawn_partial",
    "C132_all_drawn_refuted"
   ],
   "note": "Proved when the counter-ions come first in the sheet. The full statement is false of the code: the plots split results by position, and a counter-ion listed later is in neither (C132_all_drawn_refuted)."
  },
  {
   "property": "C133",
   "status": "partial",
   "theorems": [
    "C133_relative_partial",
    "C133_order_refuted",
    "C133_meq_refuted"
   ],
   "note": "Proved when the influent columns are in the order of the ion sheet, each first influent being converted correctly in every unit. The full statement is false of the code in another order (C133_order_refuted), and in meq/L where the solver is fed something else (C133_meq_refuted)."
  },
  {
   "property": "C134",
   "status": "partial",
   "theorems": [
    "C134_column_partial",
    "C134_flow_partial",
    "C134_mgd_refuted"
   ],
   "note": "Proved for every offered unit but pounds, gpm/ft^2 and mgd, for pounds within 2e-6 and for gpm/ft^2 within 1e-11 (truncated constants). The full statement is false of the code: a flow in mgd goes in 1440 times too large (C134_mgd_refuted)."
  },
  {
   "property": "C135",
   "status": "partial",
   "theorems": [
    "C135_multipliers_partial",
    "C135_other_names_refuted"
   ],
   "note": "Proved for ug, ng, mg, mg/L, days and hours. The full statement is false of the code: other names the application knows, such as ug/L or Days, get the multiplier of mg and of hours (C135_other_names_refuted)."
  },
  {
   "property": "C136",
   "status": "partial",
   "theorems": [
    "C136_concentrations_partial",
    "C136_times_partial",
    "C136_times_refuted",
    "C136_beds_partial",
    "C136_linear_beds_refuted"
   ],
   "note": "Proved for concentrations, for times of data in days and for bed volumes with a volumetric flow. The full statement is false of the code: data in hours are drawn as if in days (C136_times_refuted), and with a linear velocity the bed volumes are a sixtieth of the true ones (C136_linear_beds_refuted)."
  },
  {
   "property": "C137",
   "status": "partial",
   "theorems": [
    "C137_computed_partial",
    "C137_one_compound_partial",
    "C137_order_refuted",
    "C137_measured_refuted"
   ],
   "note": "Proved for computed results whose columns are in the order of the influents, and for measurements of a single compound. The full statement is false of the code: columns are divided by position (C137_order_refuted), and with several compounds measured values are written along rows to points listed along columns (C137_measured_refuted)."
  },
  {
   "property": "C138",
   "status": "partial",
   "theorems": [
    "C138_fouling_known_partial",
    "C138_porosity_partial",
    "C138_porosity_refuted"
   ],
   "note": "Proved for fouling, and for the porosity if the grains are denser than the bed. The full statement is false of the code: the particle density is not checked (C138_porosity_refuted)."
  },
  {
   "property": "C139",
   "status": "partial",
   "theorems": [
    "C139_points_refuted"
   ],
   "note": "The statement is false of the code: the sliders are not read, and the model runs with 7 and 12 points whatever is chosen (C139_points_refuted)."
  },
  {
   "property": "C140",
   "status": "partial",
   "theorems": [
    "C140_specs_partial",
    "C140_points_refuted",
    "C140_linear_refuted",
    "C140_data_partial",
    "C140_repeated_time_refuted"
   ],
   "note": "Proved for a volumetric flow and densities in g/ml, and for tables with distinct times. The full statement is false of the code: a linear velocity is not saved (C140_linear_refuted), and repeated times are refused (C140_repeated_time_refuted)."
  },
  {
   "property": "C141",
   "status": "partial",
   "theorems": [
    "C141_fitted_partial",
    "C141_no_fit_refuted"
   ],
   "note": "Proved after a successful fit with a nonzero first parameter. The full statement is false of the code: without a fit or after a failed one the stored parameters are overwritten by placeholders (C141_no_fit_refuted)."
  },
  {
   "property": "C142",
   "status": "partial",
   "theorems": [
    "C142_measurements_partial",
    "C142_single_row_refuted"
   ],
   "note": "Proved for influents and for effluents with at least two rows. The full statement is false of the code: a single row of effluents is not drawn (C142_single_row_refuted)."
  },
  {
   "property": "C143",
   "status": "proved",
   "theorems": [
    "C143_units"
   ],
   "note": "Every offered unit of mass and time."
  },
  {
   "property": "C144",
   "status": "partial",
   "theorems": [
    "C144_two_compounds_partial",
    "C144_one_refuted",
    "C144_three_refuted"
   ],
   "note": "Proved for sheets with exactly two compounds. The full statement is false of the code: with one compound every second value is missing, with three the third is divided by the influent of the first (C144_one_refuted, C144_three_refuted)."
  },
  {
   "property": "C145",
   "status": "partial",
   "theorems": [
    "C145_doses_partial",
    "C145_target_doses_refuted"
   ],
   "note": "Proved of the concentrations by dose. False of the waiting times, which are always given at 5, 25, ..., 145 mg/L (C145_target_doses_refuted)."
  },
  {
   "property": "C146",
   "status": "partial",
   "theorems": [
    "C146_same_unit_partial",
    "C146_units_refuted"
   ],
   "note": "Proved when all units of the sheet are the one chosen for the target study. The full statement is false of the code: otherwise the units of the sheet are replaced without converting the numbers (C146_units_refuted)."
  },
  {
   "property": "C147",
   "status": "partial",
   "theorems": [
    "C147_filled_in_partial",
    "C147_radius_refuted",
    "C147_saved_refuted",
    "C147_sizes_refuted"
   ],
   "note": "Proved for workbooks whose radius has at most four significant digits. The full statement is false of the code: a longer radius is rounded, and the saved sheets are those read at the start (C147_radius_refuted, C147_saved_refuted); sizes of the contactor are not taken from the workbook (C147_sizes_refuted)."
  },
  {
   "property": "C148",
   "status": "proved",
   "theorems": [
    "C148_bdf",
    "C148_runge_kutta",
    "C148_linear",
    "C148_column_capacity",
    "C148_column_totals",
    "C148_web_capacity",
    "C148_web_check_accepts",
    "C148_batch_amount",
    "C148_pac_content"
   ],
   "note": "For every state built from the start by adding linear combinations of values of the right-hand side and of differences of earlier states (S_Solver.v), and scipy's BDF and every explicit Runge-Kutta method are shown to build their states so (C148_bdf, C148_runge_kutta). Arithmetic is exact; the description of the library's methods is part of the trusted base."
  },
  {
   "property": "C149",
   "status": "proved",
   "theorems": [
    "C149_bdf",
    "C149_runge_kutta",
    "C149_column",
    "C149_batch",
    "C149_gac",
    "C149_pac"
   ],
   "note": "For scipy's BDF as described in S_Solver.v and every explicit Runge-Kutta method; granular carbon with either, powdered carbon with Runge-Kutta (the method it gets, since it passes 'BDF' under a name that the library does not know). Arithmetic is exact."
  },
  {
   "property": "C150",
   "status": "partial",
   "theorems": [
    "C150_ion_exchange_partial",
    "C150_powdered_partial",
    "C150_granular_partial",
    "C150_granular_beyond_refuted",
    "C150_granular_refuted"
   ],
   "note": "Proved for ion exchange and powdered carbon, and for granular carbon within the time that the integrator covered. The full statement is false of the code: the success flag is never looked at and the granular-carbon result is prolonged along its last segment, even to negative concentrations (C150_granular_beyond_refuted, C150_granular_refuted)."
  },
  {
   "property": "C151",
   "status": "partial",
   "theorems": [
    "C151_clean_water_partial",
    "C151_film_and_pore_partial",
    "C151_surface_refuted",
    "C151_fouled_rates_partial",
    "C151_rates_refuted",
    "C151_fit_without_table_partial",
    "C151_fit_refuted"
   ],
   "note": "In organic-free water the copies agree in everything; film and pore coefficients always agree. The full statement is false of the code: in every other water the copy divides the surface diffusivity by 1e15 instead of 1e10 (C151_surface_refuted), and the rates then differ by exactly the missing surface-diffusion flux (C151_fouled_rates_partial, C151_rates_refuted). The grid fit run_all of the copy never writes a candidate to the isotherm table: without a table it is the package's (C151_fit_without_table_partial), with one it ends in an error for every range of two or more multipliers (C151_fit_refuted). The float() casts are not modelled."
  },
  {
   "property": "C152",
   "status": "partial",
   "theorems": [
    "C152_flux_ratio_partial",
    "C152_flux_ratio_refuted"
   ],
   "note": "Proved for organic-free water. The full statement is false of the code: in every other water the ratio is the requested one over 1e10 (C152_flux_ratio_refuted)."
  },
  {
   "property": "C153",
   "status": "proved",
   "theorems": [
    "C153_ion_exchange",
    "C153_granular",
    "C153_ion_exchange_jacobian",
    "C153_granular_jacobian"
   ],
   "note": "For scipy's num_jac as described in S_Sparse.v and every grouping in which no two unknowns of a group share a declared row; with it C148 and C149 hold of the integrations with a declared pattern."
  },
  {
   "property": "C154",
   "status": "proved",
   "theorems": [
    "C154_ion_exchange",
    "C154_ion_exchange_start",
    "C154_granular",
    "C154_granular_reported",
    "C154_batch"
   ],
   "note": "Ion-exchange columns and batches with the presaturant kept first, and granular carbon. Arithmetic is exact."
  },
  {
   "property": "C155",
   "status": "partial",
   "theorems": [
    "C155_ion_exchange_partial",
    "C155_ion_exchange_start_partial",
    "C155_batch_partial",
    "C155_batch_refuted",
    "C155_granular_refuted"
   ],
   "note": "Proved for ion-exchange columns unless the absent ion is the only divalent one, and then as long as the presaturant's coefficient is one and the resin still holds some of it; proved for batches unless the absent ion is divalent. The full statement is false of the code: an absent divalent ion starts a batch with a thousandth of the capacity (C155_batch_refuted), and an absent compound makes granular carbon take up the others faster (C155_granular_refuted)."
  },
  {
   "property": "C156",
   "status": "partial",
   "theorems": [
    "C156_mesh_partial",
    "C156_mean_partial",
    "C156_unknown_refuted"
   ],
   "note": "Proved for every pair of sieves from 4 to 400: openings as rounded in the nominal series, so within one percent. The full statement is false of the code: an unknown sieve counts as an opening of zero (C156_unknown_refuted)."
  },
  {
   "property": "C157",
   "status": "partial",
   "theorems": [
    "C157_volume_partial",
    "C157_dimensions_refuted",
    "C157_results_partial"
   ],
   "note": "With 'Volume' selected it holds in all offered units. The full statement is false of the code: the page calls the format 'Square', the class knows only 'square', so that the width is NaN and the volume entered is used whatever is selected (C157_dimensions_refuted). The results do not depend on it: neither sizes nor flow enter the equations (C157_results_partial)."
  },
  {
   "property": "C158",
   "status": "partial",
   "theorems": [
    "C158_column_partial",
    "C158_fresh_bed_partial",
    "C158_carbon_column_partial",
    "C158_contactor_partial",
    "C158_batch_partial"
   ],
   "note": "Proved for ion-exchange columns in normal use, that is as long as the exchange equilibrium has a solution wherever the code computes it; loadings and concentrations may be negative, as they are in fresh beds (C185), and every run of a fresh bed is in normal use for some time (C158_fresh_bed_partial); for granular and powdered carbon without any condition on the state but with Freundlich exponents 1/n of at most one; for batches likewise, where moreover the divalent charge the formula divides by must be positive. With it the equilibrium statements hold of every run, not only of the constant one. Missing: states outside these ranges, where the code divides by zero or takes roots that are not Lipschitz."
  },
  {
   "property": "C159",
   "status": "partial",
   "theorems": [
    "C159_column_restart_partial"
   ],
   "note": "Proved for both column classes and any time units while the run is in normal use (the exchange equilibrium has a solution wherever the code computes it). The liquid at the inlet is compared as the influent, which the model reads there. Missing: states outside normal use, and the rounding of the saved state."
  },
  {
   "property": "C160",
   "status": "partial",
   "theorems": [
    "C160_ion_exchange_partial",
    "C160_carbon_partial",
    "C160_powder_partial",
    "C160_optional_partial",
    "C160_missing_sheet_refuted"
   ],
   "note": "Proved for the three pages and every history: each table is the one of the last workbook, of anybody, that has the sheet; the effluents of the ion-exchange page and the fouling of the carbon page do fall back to their defaults. The full statement is false of the code: a sheet that is left out keeps what was uploaded before (C160_missing_sheet_refuted, for every such history)."
  },
  {
   "property": "C161",
   "status": "partial",
   "theorems": [
    "C161_other_session_refuted",
    "C161_open_page_partial"
   ],
   "note": "Proved that a page that is open is not changed by other sessions. The full statement is false of the code: the tables are kept in one directory of the server, so a page opened after somebody's upload shows that upload (C161_other_session_refuted)."
  },
  {
   "property": "C162",
   "status": "partial",
   "theorems": [
    "C162_solver_partial",
    "C162_digits_refuted"
   ],
   "note": "Proved for every sheet: lengths, velocity, points and time unit exactly; capacity, porosities and bead radius exactly if the value column holds a text anywhere (as in the shipped and in saved workbooks) or the numbers have four digits, and to one part in 2000 otherwise. The full statement is false of the code: numbers in a purely numeric column are cut to four digits (C162_digits_refuted). Not modelled: the decimals the boxes keep."
  },
  {
   "property": "C163",
   "status": "proved",
   "theorems": [
    "C163_saved_workbook"
   ],
   "note": "Numbers are reals: the 15 digits R writes and the decimals the boxes keep are not modelled. The pellet porosity is compared for macroporous resins, the only ones whose solver uses it."
  },
  {
   "property": "C164",
   "status": "partial",
   "theorems": [
    "C164_check",
    "C164_display_partial",
    "C164_edit_refuted",
    "C164_refused_refuted"
   ],
   "note": "Proved: the check (both directions), and the display as long as the ion sheet is left as it was in the last successful run, with any number of refused or failing runs and edits of the influents in between. The full statement is false of the code: rows exchanged without a run get each other's conversion factors (C164_edit_refuted), and a refused run relabels the old results (C164_refused_refuted)."
  },
  {
   "property": "C165",
   "status": "partial",
   "theorems": [
    "C165_workbook_refuted",
    "C165_arguments_partial",
    "C165_workbook_partial"
   ],
   "note": "Proved: without a workbook faulty inputs never give a system that runs (the constructor fails); with a workbook a run is refused exactly if its influents cannot be read. The full statement is false of the code: reading the influents clears the flag of every earlier error (C165_workbook_refuted, for every such call)."
  },
  {
   "property": "C166",
   "status": "partial",
   "theorems": [
    "C166_arguments_refuted",
    "C166_workbook_partial"
   ],
   "note": "Proved for workbooks. The full statement is false of the code: a system set up by arguments keeps its ions as a plain list, which cannot be written to a sheet, so that no resin vessel of it can be run (C166_arguments_refuted, for every such call)."
  },
  {
   "property": "C167",
   "status": "partial",
   "theorems": [
    "C167_table_partial",
    "C167_bound_refuted",
    "C167_caller_refuted",
    "C167_argument_refuted",
    "C167_again_partial"
   ],
   "note": "Proved: the table (names, order, selectivities) whenever no selectivity equals the upper bound, and that adding a compound again changes nothing. The full statement is false of the code: a selectivity equal to the upper bound gets neither factor (C167_bound_refuted), rows of the caller's own counterion list are changed (C167_caller_refuted), and add_resin_selectivity ignores the selectivity in the call (C167_argument_refuted)."
  },
  {
   "property": "C168",
   "status": "proved",
   "theorems": [
    "C168_one_compound_bed_lasts",
    "C168_column_starts",
    "C168_fresh_bed_starts",
    "C168_column_lasts",
    "C168_carbon_column_starts",
    "C168_carbon_column_lasts",
    "C168_contactor_starts",
    "C168_contactor_lasts",
    "C168_batch_starts",
    "C168_fresh_batch_starts",
    "C168_batch_lasts"
   ],
   "note": "Both ion-exchange columns, both batch reactors, the granular-carbon column (any competing compounds, exponents 1/n of at most one, any starting state) and the powdered-carbon contactor. The carbon models need the exponent condition, which is what physically sensible means there. For the powdered carbon C188_lasts bounds the run, so it lasts for every duration; C168_one_compound_bed_lasts does so for granular carbon with one compound on two radial points and surface diffusion slower than pore diffusion."
  },
  {
   "property": "C169",
   "status": "partial",
   "theorems": [
    "C169_roots_partial",
    "C169_curve_partial",
    "C169_model_partial",
    "C169_start_refuted",
    "C169_level_refuted"
   ],
   "note": "Proved: the roots are exactly the solutions below (n+1) pi, the curve falls strictly between 1 and the equilibrium level of its distribution coefficient and tends to it, and it solves the diffusion model. The full statement is false of the code: the series is cut off after 500 terms and never starts from 1 (C169_start_refuted), and the level differs from the concentration the run ends with (C169_level_refuted), because the run counts the carbon with the density of water."
  },
  {
   "property": "C170",
   "status": "partial",
   "theorems": [
    "C170_roots_partial",
    "C170_twice_refuted",
    "C170_curve_partial",
    "C170_model_partial",
    "C170_start_refuted",
    "C170_missed_refuted",
    "C170_others_refuted"
   ],
   "note": "Proved for Biot numbers above one where the point that splits the first interval is not a root: the roots are exactly the solutions below (n+3/2) pi, the curve exists, falls strictly between 1 and the equilibrium level and tends to it, and it solves the model of film and diffusion. The full statement is false of the code: a root at the split point is counted twice (C170_twice_refuted), with a Biot number below one a root is missed when the fraction has its pole in a later interval (C170_missed_refuted), the series is cut off and never starts from 1 (C170_start_refuted), and a compound whose roots are not found takes the curves of all others with it (C170_others_refuted)."
  },
  {
   "property": "C171",
   "status": "proved",
   "theorems": [
    "C171_column",
    "C171_column_solver",
    "C171_batch",
    "C171_powdered",
    "C171_granular",
    "C171_granular_steady",
    "C171_small_column"
   ],
   "note": "Columns with any influent and any solver time unit (C171_column, C171_column_solver), batches, powdered carbon, carbon columns with the same contact time in any water, and with r times the contact time in steady water; C171_small_column joins it to the small-column designer of C51. Coefficients of carbon columns are supplied, not from correlations."
  },
  {
   "property": "C172",
   "status": "partial",
   "theorems": [
    "C172_column",
    "C172_column_start",
    "C172_batch",
    "C172_granular_partial",
    "C172_granular_refuted"
   ],
   "note": "Full for ion-exchange columns and batches. For carbon columns only when every compound is in the water at the start (C172_granular_partial); with a compound that is absent at the start the full statement is false of the code (C172_granular_refuted): the number 1 put in place of its concentration does not scale."
  },
  {
   "property": "C173",
   "status": "partial",
   "theorems": [
    "C173_column",
    "C173_column_start",
    "C173_influent",
    "C173_batch",
    "C173_batch_start_partial",
    "C173_batch_start_refuted",
    "C173_column_results"
   ],
   "note": "Full for columns: the totals are a run (C173_column), start alike (C173_column_start), read the summed influent (C173_influent) and by uniqueness are the run (C173_column_results, in normal use). For batches the totals satisfy the equations (C173_batch) and the start agrees unless a divalent ion has several rows (C173_batch_start_partial); then the full statement is false of the code (C173_batch_start_refuted): each row starts with a thousandth of the capacity."
  },
  {
   "property": "C174",
   "status": "partial",
   "theorems": [
    "C174_simple",
    "C174_quotients",
    "C174_flow_partial",
    "C174_density_partial",
    "C174_gallons_per_minute_partial",
    "C174_gallons_refuted",
    "C174_velocity_from_flow_refuted"
   ],
   "note": "Proved of lengths, volumes, times, areas, weights, concentrations, velocities, diffusivities and capacities, for every dialogue, and of flows and densities without gallons; gallons per minute keep their factor. The full statement is false of the code: any other flow in gallons and any density per gallon is reported in a spelling that raises IndexError (C174_gallons_refuted), and gpm turned into a velocity in one that has to be asked for again."
  },
  {
   "property": "C175",
   "status": "proved",
   "theorems": [
    "C175_concentrations",
    "C175_waiting_times",
    "C175_starting_concentrations",
    "C175_page"
   ],
   "note": "Concentrations by dose, waiting times by dose and by starting concentration, and the study of the web page, after every sequence of earlier studies. The solver is any function of the equations and the duration."
  },
  {
   "property": "C176",
   "status": "partial",
   "theorems": [
    "C176_untreated_refuted",
    "C176_counterions_partial"
   ],
   "note": "The full statement is false of the code (C176_untreated_refuted: in every run that ends, such a compound is fed to the resin at 1e-16 and reported as 0 between the vessels). Proved: counterions held steady in the resin's sheet keep their value (C176_counterions_partial)."
  },
  {
   "property": "C177",
   "status": "partial",
   "theorems": [
    "C177_near_the_ranges_partial",
    "C177_exhaustive_partial",
    "C177_next_interval",
    "C177_outside_refuted"
   ],
   "note": "The full statement is false of the staged mode (C177_outside_refuted: ranges 0.05-0.15 and 0.31-0.34, stored K = 0 and 1/n = 0.3). Proved: the exhaustive mode tries only the given values (C177_exhaustive_partial); the staged mode stays within 0.05 and 0.2 of the ranges and stores a 1/n at most the greatest given (C177_near_the_ranges_partial); the next interval always holds the best value (C177_next_interval)."
  },
  {
   "property": "C178",
   "status": "proved",
   "theorems": [
    "C178_pore_liquid",
    "C178_inside",
    "C178_film",
    "C178_reported",
    "C178_page"
   ],
   "note": "The solver that integrates the equations is a parameter; the theorems are about the right-hand side it is given and what is done with its answer."
  },
  {
   "property": "C179",
   "status": "partial",
   "theorems": [
    "C179_distribution",
    "C179_diffusion",
    "C179_biot_partial",
    "C179_biot_refuted"
   ],
   "note": "Proved for the distribution numbers, the loading and the diffusion time scales, and for the Biot number without surface diffusion or without pores. The full statement is false of the code: the Biot number weighs surface diffusion with the pores' share of the capacity too and is always too small (C179_biot_refuted)."
  },
  {
   "property": "C180",
   "status": "partial",
   "theorems": [
    "C180_drawn_partial",
    "C180_plots_partial",
    "C180_missing_refuted",
    "C180_single_row_refuted",
    "C180_relative_partial",
    "C180_order_refuted"
   ],
   "note": "Proved for sheets that list the ions of the page, times in hours or days and more than one row of effluents, relative concentrations for columns in the order of the ion sheet and no ion in meq/L. The full statement is false of the code: effluents that leave out an ion keep the influents from being drawn even when effluents are not asked for (C180_missing_refuted), a single row is not drawn (C180_single_row_refuted), and relative effluents are divided by position (C180_order_refuted)."
  },
  {
   "property": "C181",
   "status": "partial",
   "theorems": [
    "C181_last_run_partial",
    "C181_units_refuted",
    "C181_beds_partial",
    "C181_beds_refuted",
    "C181_relative_partial",
    "C181_relative_refuted",
    "C181_saved_partial",
    "C181_unticked_refuted",
    "C181_inputs_refuted"
   ],
   "note": "Proved for every sequence of edits, refused and failed runs: concentrations as long as the unit of the concentrations is that of the run, relative concentrations as long as the button is not pressed again, bed volumes with the column on the page. The full statement is false of the code: another concentration unit rescales old results (C181_units_refuted), another length moves them on the bed-volume axis (C181_beds_refuted), a refused run divides them by the new influents (C181_relative_refuted), the workbook has no results when they are not drawn (C181_unticked_refuted) and holds them beside whatever inputs the page has by then (C181_inputs_refuted)."
  },
  {
   "property": "C182",
   "status": "partial",
   "theorems": [
    "C182_values",
    "C182_ions_partial",
    "C182_missing",
    "C182_runs",
    "C182_columns"
   ],
   "note": "Proved: parameters, coefficients and influents of the run, that a missing one stops it, and that complete sheets run, for both models. The link from a row of the sheet to its ion is proved for influents without alkalinity and pH (C182_ions_partial); with them the full statement is false of the code, whose valences then belong to other rows (C10_valence_order_refuted)."
  },
  {
   "property": "C183",
   "status": "partial",
   "theorems": [
    "C183_named_partial",
    "C183_other_names",
    "C183_spelling_refuted",
    "C183_ohashi_refuted",
    "C183_ko_refuted"
   ],
   "note": "Proved for seven of the nine names and for all other names. The Sherwood numbers are written down from the code's citations, with the exponents it has; the publications themselves were not available. The full statement is false of the code: Ohashi's comes as a tuple (C183_ohashi_refuted), Ko's is divided by the powers it should be multiplied with (C183_ko_refuted), and Kataoka and Wakao are known under misspelt names only (C183_spelling_refuted)."
  },
  {
   "property": "C184",
   "status": "partial",
   "theorems": [
    "C184_logistic",
    "C184_regression",
    "C184_single_point_partial",
    "C184_single_point_refuted"
   ],
   "note": "Proved for logistic curves and for regressions through the readings with effluent, with breakthrough from day 1 to 2000; the fits themselves are any functions. The full statement is false of the code for the verdict from one reading: its line starts from zero at the last reading but one, which puts breakthrough too early when that one already shows effluent (C184_single_point_refuted)."
  },
  {
   "property": "C185",
   "status": "partial",
   "theorems": [
    "C185_column_refuted",
    "C185_effluent_refuted",
    "C185_start_partial"
   ],
   "note": "The full statement is false of the code: from a fresh bed every ion of the influent is at once negative at the second point below the inlet (C185_column_refuted), and in the effluent too when the bed has an odd number of points and no finite elements (C185_effluent_refuted); the axial derivative is a polynomial one and its first column alternates in sign. Proved about the first moments: which points are positive and which negative (C185_start_partial). Missing: signs at later times and with points beyond the first element."
  },
  {
   "property": "C186",
   "status": "partial",
   "theorems": [
    "C186_last_run",
    "C186_relative_partial",
    "C186_last_study",
    "C186_waiting",
    "C186_title_partial",
    "C186_title_refuted",
    "C186_failed_refuted",
    "C186_saved_partial",
    "C186_inputs_refuted"
   ],
   "note": "Proved for every sequence of edits, runs and studies that did not fail: the curves (C186_last_run), C/C0 for two compounds (C186_relative_partial; other numbers are C144), concentrations by dose (C186_last_study), waiting times (C186_waiting) and what is saved. The full statement is false of the code: the plot of waiting times is titled with the target entered now (C186_title_refuted), an error in a button ends the session with all results (C186_failed_refuted), and the workbook holds the uploaded contactor and the present compounds beside the results of other inputs (C186_inputs_refuted)."
  },
  {
   "property": "C187",
   "status": "proved",
   "theorems": [
    "C187_integrals",
    "C187_divergence",
    "C187_dissipation",
    "C187_points",
    "C187_points_unique",
    "C187_one_grid"
   ],
   "note": "The points are assumed to be what scipy's roots_sh_jacobi is documented to return (jacobi_roots); C187_points shows that such points exist for every number of points and every shape, C187_points_unique that there is only one choice, and C187_one_grid that the operators are the same for every root finder that returns them."
  },
  {
   "property": "C188",
   "status": "proved",
   "theorems": [
    "C188_bounds",
    "C188_loading",
    "C188_table",
    "C188_lasts"
   ],
   "note": "In exact arithmetic along an exact run. Pore diffusivity not below surface diffusivity. C188_lasts: runs last for every duration; C188_table: the result tables of an exact integration."
  },
  {
   "property": "C189",
   "status": "proved",
   "theorems": [
    "C189_equilibrium",
    "C189_settles",
    "C189_more_carbon"
   ],
   "note": "In exact arithmetic along exact runs; 1/n of at most one, a positive surface diffusivity not above the pore diffusivity. C188_lasts: such runs exist for every duration."
  },
  {
   "property": "C190",
   "status": "partial",
   "theorems": [
    "C190_limit_partial",
    "C190_duration_refuted"
   ],
   "note": "The full statement is false of the code: 3000 minutes are not enough for a slow film (C190_duration_refuted). Proved: the longer the run, the nearer the coefficient comes to that of equilibrium, up to the factor density that the code puts in (C190_limit_partial)."
  },
  {
   "property": "C191",
   "status": "partial",
   "theorems": [
    "C191_column_refuted",
    "C191_effluent_refuted",
    "C191_start_partial"
   ],
   "note": "The full statement is false of the code: from a fresh bed every compound the influent carries is at once negative at the second point below the inlet and every second one after it in the first element (C191_column_refuted), and in the effluent too when there is one element with an odd number of points; zero is then reported (C191_effluent_refuted). At the other points of the first element it is at once positive, and with an even number of points so is the reported effluent (C191_start_partial). Reported values are never negative (C73_reported_nonneg). Missing: signs at later times and with points beyond the first element; exponents 1/n above one."
  },
  {
   "property": "C192",
   "status": "proved",
   "theorems": [
    "C192_ion_column",
    "C192_ion_column_unique",
    "C192_batch",
    "C192_batch_unique",
    "C192_carbon",
    "C192_carbon_unique"
   ],
   "note": "For columns of both ion-exchange models (C192_ion_column, C192_ion_column_unique; presaturant present on the resin, surface diffusion at most pore diffusion), batch reactors (C192_batch, C192_batch_unique) and granular carbon (C192_carbon, C192_carbon_unique; tortuosity times surface diffusion at most pore diffusion, any Freundlich exponents). That such states are at rest is C18, C64 and C72."
  },
  {
   "property": "C193",
   "status": "proved",
   "theorems": [
    "C193_ion_column",
    "C193_ion_column_forgets",
    "C193_batch",
    "C193_batch_forgets",
    "C193_carbon",
    "C193_carbon_forgets"
   ],
   "note": "Ion-exchange columns (C193_ion_column, C193_ion_column_forgets), batch reactors (C193_batch, C193_batch_forgets) and granular carbon (C193_carbon, C193_carbon_forgets; Freundlich exponents 1/n at most 1). The limit must hold presaturant on the resin (and, in a batch reactor, every divalent ion, since its formula divides by their sum), so the influent must carry the presaturant. That a run settles is assumed here, not proved; for powdered carbon it is proved (C189)."
  },
  {
   "property": "C194",
   "status": "proved",
   "theorems": [
    "C194_ion_column",
    "C194_monovalent_shares",
    "C194_batch",
    "C194_carbon"
   ],
   "note": "Columns (C194_ion_column, an equivalence; C194_monovalent_shares), batch reactors (C194_batch), granular carbon (C194_carbon). Uniqueness is C192."
  },
  {
   "property": "C195",
   "status": "proved",
   "theorems": [
    "C195_two_points_settle",
    "C195_two_ions_settle",
    "C195_two_ions_forget",
    "C195_fresh_start",
    "C195_divalent_settle",
    "C195_divalent_forget",
    "C195_many_ions_settle",
    "C195_many_ions_forget"
   ],
   "note": "C195_two_ions_settle, C195_two_ions_forget; C195_fresh_start shows that fresh reactors start with the totals asked for. Settling is proved here, not assumed as in C193. The sign condition is on the run (with surface diffusion only at the bead surface); with monovalent ions on one or two radial points it is proved to hold (C195_two_points_settle). With any number of monovalent ions on one or two radial points nothing is assumed of the run and no presaturant is asked for (C195_many_ions_settle, C195_many_ions_forget; such runs exist by C200_endless): the free energy falls until film and bead are in equilibrium. With divalent ions among them the same holds from every start with presaturant and a divalent ion at every radial point (C195_divalent_settle, C195_divalent_forget; runs exist by C200_divalent_endless). Three or more ions on three or more radial points are outside."
  },
  {
   "property": "C196",
   "status": "partial",
   "theorems": [
    "C196_batch_two_points_partial",
    "C196_divalent_two_points_partial",
    "C196_column_two_points_partial",
    "C196_column_two_points_fresh_partial",
    "C196_contactor_start",
    "C196_contactor_refuted",
    "C196_two_points_partial",
    "C196_column_start",
    "C196_column_refuted",
    "C196_batch_start",
    "C196_batch_refuted",
    "C196_bed_start",
    "C196_bed_refuted",
    "C196_bed_two_points_partial",
    "C196_column_one_point_partial"
   ],
   "note": "The full statement is false of the code on every grid of three or more radial points: at once the loading is negative two points below the surface, four below, and so on (C196_contactor_refuted, C196_column_refuted, C196_bed_refuted, C196_batch_refuted), and positive at the points between (C196_contactor_start, C196_column_start, C196_bed_start, C196_batch_start; in a batch for ions that the resin starts without): the column of the radial operator that belongs to the surface alternates in sign. On one or two points the loadings of a contactor stay non-negative to the end of every run, for every exponent (C196_two_points_partial), and so do, on two points, those of the grains at the inlet of a granular-carbon bed, for every mixture and exponent, while surface diffusion is not faster than pore diffusion (C196_bed_two_points_partial), and everything in a batch on one or two points, of monovalent ions (C196_batch_two_points_partial) or with divalent ions, presaturant and a divalent ion being on the resin at the start (C196_divalent_two_points_partial). At the inlet of an ion-exchange column on two points whose ions share one film, one surface and one pore coefficient, every bead keeps its capacity, its presaturant and loadings between zero and capacity, with or without divalent ions, for every influent without negative concentrations (C196_column_two_points_partial; from fresh resin C196_column_two_points_fresh_partial), and so it is on one point if the ions share one film coefficient (C196_column_one_point_partial). Missing: columns on one or two points with unequal coefficients; beads and grains below the inlet, exponents of one in a bed; signs at later times on more points."
  },
  {
   "property": "C197",
   "status": "partial",
   "theorems": [
    "C197_sheet_partial",
    "C197_first_rows_refuted",
    "C197_absent_refuted",
    "C197_second_bed"
   ],
   "note": "Proved: with copy-on-write, and without it for every compound present at time zero, the relative influent times its reference is the sheet in molar units, row by row. The full statement is false of the code without copy-on-write (the default before pandas 3; the repository names no version): the one that replaces a zero reference is written through the view into the first row of the sheet, so that a compound absent at time zero is fed at one micromole per litre there, falling linearly to the second row (C197_first_rows_refuted), and a clean bed takes up a compound that is nowhere in its sheet (C197_absent_refuted). The second of two carbon beds in series always has such a zero (C197_second_bed). That the row is a view rests on pandas' single-block fast path, which the model takes as given."
  },
  {
   "property": "C198",
   "status": "partial",
   "theorems": [
    "C198_plain_partial",
    "C198_fitted_partial",
    "C198_repeat_partial",
    "C198_fit_refuted",
    "C198_two_columns_refuted",
    "C198_force_refuted",
    "C198_grid_refuted"
   ],
   "note": "Proved: programs that force no breakthrough days and leave the optimizer off change no table of the caller's, with any number of columns, tables and fits (grid trials included where pandas copies on write), a column that has been fitted once never writes to a table of the caller's again, and a column with a table to itself that does not optimize runs every compound with the values at construction however often (C198_repeat_partial). The full statement is false of the code, which stores the caller's frame without copying: the first fit with the optimizer on leaves the last pair tried in it (C198_fit_refuted), a second column on the same table runs once with that pair and afterwards with the original (C198_two_columns_refuted), forced breakthrough days replace columns of it in the constructor (C198_force_refuted), and without copy-on-write a grid search leaves its first pair in it (C198_grid_refuted). Runs that raise are not modelled here."
  },
  {
   "property": "C199",
   "status": "proved",
   "theorems": [
    "C199_one_sphere",
    "C199_weights",
    "C199_one_axis"
   ],
   "note": "Radii, diffusion matrix and weights (C199_one_sphere), positivity of the weights (C199_weights) and the axial matrix below the inlet (C199_one_axis). The root finders and numpy's inverse are parameters with their documented contracts. Nothing is claimed about the inlet row of the axial matrix."
  },
  {
   "property": "C200",
   "status": "proved",
   "theorems": [
    "C200_stays_physical",
    "C200_lasts",
    "C200_fresh_start",
    "C200_divalent_stays_physical",
    "C200_divalent_lasts",
    "C200_divalent_fresh_start",
    "C200_divalent_endless",
    "C200_endless"
   ],
   "note": "C200_lasts (runs to any end), C200_endless (one run for all times), C200_fresh_start (the start the code makes is admitted). C200_stays_physical (bounds, totals, presence). That they settle is C195_many_ions_settle. With divalent ions: C200_divalent_lasts, C200_divalent_endless, C200_divalent_stays_physical, and C200_divalent_fresh_start (the start the code makes has a thousandth of the capacity of each divalent ion, so with at most a thousand ions presaturant is left). The run is the exact solution of the equations the code passes to the solver. On three or more points the first moments already break the bounds (C196_batch_refuted)."
  },
  {
   "property": "C201",
   "status": "proved",
   "theorems": [
    "C201_inlet_forgets",
    "C201_inlet_exhausts",
    "C201_one_point_forgets",
    "C201_one_point_exhausts",
    "C201_pore_exhausts"
   ],
   "note": "C201_inlet_forgets (any influent history; the rate and the constant are given before the history and the starts), C201_inlet_exhausts (constant influent; the limit is in_equilibrium with it and of the capacity) on two points; C201_one_point_forgets, C201_one_point_exhausts on one point, with any diffusion coefficients; C201_pore_exhausts on two points of the pore model with pore diffusion faster than surface diffusion, for constant water with some of every ion. That the beads stay at capacity, with presaturant and without negative loadings, is C196_column_two_points_partial and C196_column_one_point_partial and not assumed along the run. Below the inlet the liquid is not the influent and the statement is not made."
  },
  {
   "property": "C202",
   "status": "proved",
   "theorems": [
    "C202_inlet_table",
    "C202_one_point_table",
    "C202_inlet_near_equilibrium",
    "C202_one_point_near_equilibrium",
    "C202_inlet_tracks",
    "C202_one_point_tracks"
   ],
   "note": "C202_inlet_tracks on two radial points, C202_one_point_tracks on one point with any diffusion coefficients; A, B and G are given before the histories, the starts and the span of time. C202_inlet_table and C202_one_point_table: two influent tables read by the solver's interpolation whose rows differ by at most eps. C202_inlet_near_equilibrium and C202_one_point_near_equilibrium: fed water within eps of a composition that carries presaturant, the beads come within a constant times eps of equilibrium with it. At the inlet only: below it the liquid is a state of its own."
  },
  {
   "property": "C203",
   "status": "proved",
   "theorems": [
    "C203_inlet_repeats",
    "C203_one_point_repeats"
   ],
   "note": "C203_inlet_repeats on two radial points, C203_one_point_repeats on one point with any diffusion coefficients; eps = 0 is an exactly periodic influent. At the inlet only."
  },
  {
   "property": "C204",
   "status": "proved",
   "theorems": [
    "C204_grains_stay_near",
    "C204_more_in_more_on",
    "C204_never_above_equilibrium",
    "C204_fresh_grains_only_fill",
    "C204_spent_grains_only_empty",
    "C204_fresh_grains_fill_up"
   ],
   "note": "C204_more_in_more_on (order), C204_grains_stay_near (bound; eps = 0: never further apart), C204_never_above_equilibrium (the highest influent bounds the loading), C204_fresh_grains_only_fill (loading never falls under a constant influent), C204_fresh_grains_fill_up (and reaches equilibrium; such runs exist by C168_one_compound_bed_lasts), C204_spent_grains_only_empty (and never rises from equilibrium with stronger water). Influents compared at whole minutes, which is where the solver tabulates them. At the inlet, where the liquid is the influent; one compound, since with several more of one can displace another."
  }
 ]
}