{
 "claims": [
  {
   "property": "C01",
   "status": "proved",
   "theorems": [
    "C01_kernel_partition",
    "C01_partition_of_unity",
    "C01_kernel_is_bspline"
   ],
   "note": "Kernel sums for every real position; stencil of every in-grid particle in 2D and 3D, all spline degrees; the kernels are the cardinal B-splines."
  },
  {
   "property": "C02",
   "status": "proved",
   "theorems": [
    "C02_kernel_derivative",
    "C02_kernel_second_derivative",
    "C02_gradient_weights",
    "C02_linear_kernel_at_node"
   ],
   "note": "Linear splines: off grid lines, and the stated failure on a grid line."
  },
  {
   "property": "C03",
   "status": "proved",
   "theorems": [
    "C03_inertia",
    "C03_constants",
    "C03_linear_has_no_constant"
   ],
   "note": ""
  },
  {
   "property": "C04",
   "status": "proved",
   "theorems": [
    "C04_initial_grid_covers",
    "C04_initial_grid_exists",
    "C04_first_step_covers"
   ],
   "note": "Exact arithmetic; node count fits in 32 bits."
  },
  {
   "property": "C05",
   "status": "partial",
   "theorems": [
    "C05_refuted",
    "C05_later_grids_cover_partial",
    "C05_later_steps_cover_partial"
   ],
   "note": "Fails for the code: the 1e-8*dx slack in the expansion leaves a window in which the grid is one node short. Proved outside that window, for one call and for every step of a simulation."
  },
  {
   "property": "C06",
   "status": "proved",
   "theorems": [
    "C06_grid_never_drifts",
    "C06_simulation_never_drifts"
   ],
   "note": ""
  },
  {
   "property": "C07",
   "status": "proved",
   "theorems": [
    "C07_index_bijection_2D",
    "C07_index_bijection_3D",
    "C07_saved_rows"
   ],
   "note": ""
  },
  {
   "property": "C08",
   "status": "proved",
   "theorems": [
    "C08_mass_conservation"
   ],
   "note": "Exact arithmetic; 2D and 3D; includes that the transfer is defined and that the built-in check passes."
  },
  {
   "property": "C09",
   "status": "proved",
   "theorems": [
    "C09_momentum_conservation",
    "C09_check_accepts"
   ],
   "note": "Exact arithmetic."
  },
  {
   "property": "C10",
   "status": "proved",
   "theorems": [
    "C10_schedule_independent",
    "C10_binary64_refuted"
   ],
   "note": "The independence is proved in exact arithmetic for P2G and the MUSL re-projection; its failure in binary64 is proved by a witness, as the property states."
  },
  {
   "property": "C11",
   "status": "proved",
   "theorems": [
    "C11_velocity_average"
   ],
   "note": ""
  },
  {
   "property": "C12",
   "status": "proved",
   "theorems": [
    "C12_free_fall",
    "C12_uniform_motion"
   ],
   "note": "Over exact reals. With linear splines a particle exactly on a grid line is excluded (see C03): the code gives it a spurious velocity gradient."
  },
  {
   "property": "C13",
   "status": "proved",
   "theorems": [
    "C13_affine_fields"
   ],
   "note": "Over exact reals; a full step, both USL and MUSL."
  },
  {
   "property": "C14",
   "status": "proved",
   "theorems": [
    "C14_momentum_balance"
   ],
   "note": "Over exact reals; a full step, any material model, USL and MUSL."
  },
  {
   "property": "C15",
   "status": "proved",
   "theorems": [
    "C15_velocity_blend",
    "C15_special_cases"
   ],
   "note": "Over exact reals; also with obstacles and periodic boundaries."
  },
  {
   "property": "C16",
   "status": "partial",
   "theorems": [
    "C16_friction_average",
    "C16_massless_node_refuted"
   ],
   "note": "The average is proved for massive nodes; the finiteness of saved values fails: a massless node gets 0/0 = NaN."
  },
  {
   "property": "C17",
   "status": "proved",
   "theorems": [
    "C17_no_slip_terrain",
    "C17_no_slip_plate"
   ],
   "note": "Stated for the last object or plate in processing order that contains the node; a later containing object overrides (C22)."
  },
  {
   "property": "C18",
   "status": "proved",
   "theorems": [
    "C18_terrain",
    "C18_plate"
   ],
   "note": ""
  },
  {
   "property": "C19",
   "status": "proved",
   "theorems": [
    "C19_coulomb_terrain",
    "C19_coulomb_plate_2D"
   ],
   "note": "Terrain in 2D and 3D, plates in 2D; plates in 3D are C20."
  },
  {
   "property": "C20",
   "status": "partial",
   "theorems": [
    "C20_refuted",
    "C20_coulomb_plate_3D_partial"
   ],
   "note": "Refuted by a witness: the second tangential component is divided with the already updated first one. What remains true is proved."
  },
  {
   "property": "C21",
   "status": "proved",
   "theorems": [
    "C21_terrain",
    "C21_plate",
    "C21_sequence",
    "C21_negative_friction_refuted"
   ],
   "note": "Terrain: any friction. Plates: friction >= 0, and the need for that condition is proved by a witness."
  },
  {
   "property": "C22",
   "status": "proved",
   "theorems": [
    "C22_outside_untouched",
    "C22_last_object_wins",
    "C22_last_plate_wins",
    "C22_earlier_contact_refuted"
   ],
   "note": ""
  },
  {
   "property": "C23",
   "status": "partial",
   "theorems": [
    "C23_inside",
    "C23_unit_normals_partial",
    "C23_holds_in_2D",
    "C23_ground_3D_refuted"
   ],
   "note": "True in 2D; in 3D for all terrains except the ground, whose third component is uninitialised."
  },
  {
   "property": "C24",
   "status": "partial",
   "theorems": [
    "C24_plate_motion",
    "C24_collision_velocity_partial",
    "C24_first_step_refuted"
   ],
   "note": "Positions and extents proved; the collision velocity lags one step and is unscaled in the first step."
  },
  {
   "property": "C25",
   "status": "proved",
   "theorems": [
    "C25_time_step_limits",
    "C25_slow_particles_ignored"
   ],
   "note": "Over exact reals. Speeds up to 1e-10 do not limit the step (second theorem)."
  },
  {
   "property": "C26",
   "status": "proved",
   "theorems": [
    "C26_frames_complete_ordered_on_time",
    "C26_frames_until_abort",
    "C26_frames_in_order",
    "C26_grid_files"
   ],
   "note": "Times are over exact reals; the order of the frames and the grid files are proved for every arithmetic, binary64 included. The last frame is written twice; the statement says so."
  },
  {
   "property": "C27",
   "status": "partial",
   "theorems": [
    "C27_simulations_terminate",
    "C27_binary64_clock_stalls_refuted"
   ],
   "note": "Proved over exact reals with an explicit step bound. In binary64 it is false: at time 128 with the default min_dt the clock stops advancing when particles are very fast."
  },
  {
   "property": "C28",
   "status": "proved",
   "theorems": [
    "C28_guards",
    "C28_no_frame_after_error",
    "C28_error_is_detected"
   ],
   "note": "The first two hold in every arithmetic, binary64 included."
  },
  {
   "property": "C29",
   "status": "partial",
   "theorems": [
    "C29_gravity_ramp",
    "C29_second_simulation_refuted"
   ],
   "note": "Proved for a simulation that starts from the user's gravity. A second call of simulate() takes the ramped gravity left by the first as the user's gravity (refuted by a concrete case)."
  },
  {
   "property": "C30",
   "status": "proved",
   "theorems": [
    "C30_ghosts_leave_no_trace"
   ],
   "note": "In every arithmetic, binary64 included."
  },
  {
   "property": "C31",
   "status": "proved",
   "theorems": [
    "C31_wrap_keeps_particles"
   ],
   "note": "Over exact reals; a full step."
  },
  {
   "property": "C32",
   "status": "partial",
   "theorems": [
    "C32_images_partial",
    "C32_right_end_refuted",
    "C32_narrow_domain_refuted",
    "C32_friction_refuted"
   ],
   "note": "Proved for 0 <= x < Lx and Lx >= 8 dx and without material-induced friction. The full claim is false: no image at x = Lx exactly, only one image in boxes narrower than 8 dx, and with material-induced friction the transfer reads muI of ghosts out of range."
  },
  {
   "property": "C33",
   "status": "proved",
   "theorems": [
    "C33_periodic_grid_covers",
    "C33_below_zero_undefined",
    "C33_periodic_grid_exists",
    "C33_simulation_grid_covers"
   ],
   "note": "Half-open ranges; what happens below y=0 is shown separately."
  },
  {
   "property": "C34",
   "status": "proved",
   "theorems": [
    "C34_elastic_states",
    "C34_yielding_states"
   ],
   "note": "Real arithmetic, any SVD meeting its contract, Hencky elasticity; elastic_domain is the yield surface of each model as the code tests it."
  },
  {
   "property": "C35",
   "status": "proved",
   "theorems": [
    "C35_von_mises"
   ],
   "note": "Real arithmetic."
  },
  {
   "property": "C36",
   "status": "proved",
   "theorems": [
    "C36_drucker_prager"
   ],
   "note": "Real arithmetic; the tip is reached when M p + c < 1e-10, as in the code."
  },
  {
   "property": "C37",
   "status": "partial",
   "theorems": [
    "C37_softening_drucker_prager_partial",
    "C37_softened_surface_refuted"
   ],
   "note": "Every trial state takes exactly one case, the tip only decays and the volume correction is reset. The returned q is on the surface predicted from the unsoftened return. The claim about the surface of the stored strain is false: the counterexample returns a state strictly outside it."
  },
  {
   "property": "C38",
   "status": "proved",
   "theorems": [
    "C38_viscous_von_mises",
    "C38_viscous_drucker_prager"
   ],
   "note": "Flow rule exact for exponent 1 (closed form), residual below 1e-2 when the Newton loop reports success; exit is set otherwise."
  },
  {
   "property": "C39",
   "status": "proved",
   "theorems": [
    "C39_explicit",
    "C39_implicit_exponential",
    "C39_implicit_onevar",
    "C39_cam_clay_update"
   ],
   "note": "Real arithmetic."
  },
  {
   "property": "C40",
   "status": "proved",
   "theorems": [
    "C40_limited_search"
   ],
   "note": "Exact characterisation of the bounded search over at most 64 candidates."
  },
  {
   "property": "C41",
   "status": "proved",
   "theorems": [
    "C41_dp_mui",
    "C41_dp_mui_tip",
    "C41_mcc_mui"
   ],
   "note": "Real arithmetic."
  },
  {
   "property": "C42",
   "status": "proved",
   "theorems": [
    "C42_correction_keeps_volume",
    "C42_step_volume",
    "C42_history_volume"
   ],
   "note": "For trial deformations with principal stretches of at least 1e-4 (smaller ones are cut off by the code)."
  },
  {
   "property": "C43",
   "status": "partial",
   "theorems": [
    "C43_plastic_strain_grows_partial",
    "C43_mcc_binary64_refuted"
   ],
   "note": "Proved over all histories for every model except MCC and MCCVisc. For MCC in double arithmetic a concrete update decreases the strain."
  },
  {
   "property": "C44",
   "status": "partial",
   "theorems": [
    "C44_stored_stress_hencky",
    "C44_stored_stress_neo_hookean",
    "C44_symmetric",
    "C44_saved_pressure_and_shear",
    "C44_step_stress",
    "C44_torn_refuted"
   ],
   "note": "Holds except for VMVisc particles whose trial pressure is below the tension cut-off. There the deformation is reset to a rotation and the stress is not."
  },
  {
   "property": "C45",
   "status": "proved",
   "theorems": [
    "C45_update_objective",
    "C45_hencky_objective",
    "C45_neo_hookean_objective",
    "C45_rotation_is_stress_free",
    "C45_hydrostatic"
   ],
   "note": ""
  },
  {
   "property": "C46",
   "status": "partial",
   "theorems": [
    "C46_defined_partial",
    "C46_material_defined",
    "C46_mccmui_nohard_refuted",
    "C46_mcc_nohard_mibf_refuted"
   ],
   "note": "Every configuration outside reads_garbage is defined, in any arithmetic. The two remaining families read uninitialised variables."
  },
  {
   "property": "C47",
   "status": "partial",
   "theorems": [
    "C47_rate_current_partial",
    "C47_what_is_counted",
    "C47_musl_count_exact",
    "C47_usl_count_bounds",
    "C47_usl_one_thread_exact",
    "C47_usl_count_refuted",
    "C47_usl_stale_refuted"
   ],
   "note": "The rate is reset in MUSL, with DPSoft and DPVisc; elsewhere it is stale. The MUSL count is exact for every schedule; the USL count is a data race and only bounded."
  },
  {
   "property": "C48",
   "status": "proved",
   "theorems": [
    "C48_regular_sampling"
   ],
   "note": "Both dimensions, every box, dx, ppc and crop shape for which the cell counts fit an int (other sizes are undefined behaviour in the model). Over the reals: binary64 rounding of L/s may lose or gain one layer."
  },
  {
   "property": "C49",
   "status": "proved",
   "theorems": [
    "C49_random_sampling"
   ],
   "note": "For every list of points the Poisson sampler may return (the sampler itself is an oracle) and every crop shape."
  },
  {
   "property": "C50",
   "status": "partial",
   "theorems": [
    "C50_earlier_frames_complete_partial",
    "C50_after_a_normal_end",
    "C50_named_frame_lost_refuted"
   ],
   "note": "Full statement: after a crash at any point the files of every frame up to the one named in last_written.txt are complete. Proved: every earlier frame is complete, and all frames are after a normal end. Refuted for the named frame itself: the writer of the PLY file is not closed before last_written.txt is written, and the last frame is written a second time."
  },
  {
   "property": "C51",
   "status": "proved",
   "theorems": [
    "C51_step_keeps_arrays",
    "C51_simulation_keeps_arrays"
   ],
   "note": "In every arithmetic, binary64 included."
  },
  {
   "property": "C52",
   "status": "proved",
   "theorems": [
    "C52_averages",
    "C52_uniform"
   ],
   "note": ""
  },
  {
   "property": "C53",
   "status": "proved",
   "theorems": [
    "C53_step_is_safe",
    "C53_first_step_is_safe",
    "C53_periodic_step_is_safe"
   ],
   "note": ""
  },
  {
   "property": "C54",
   "status": "proved",
   "theorems": [
    "C54_particle_tables"
   ],
   "note": "Every particle state, column selection and schedule of the stress loop."
  },
  {
   "property": "C55",
   "status": "proved",
   "theorems": [
    "C55_grid_tables"
   ],
   "note": "Every save event of every run of the loop."
  },
  {
   "property": "C56",
   "status": "proved",
   "theorems": [
    "C56_inside",
    "C56_contact",
    "C56_no_gradient"
   ],
   "note": "The level set and its gradient are arbitrary functions; OpenVDB sampling itself is an oracle."
  },
  {
   "property": "C57",
   "status": "proved",
   "theorems": [
    "C57_regular",
    "C57_random"
   ],
   "note": "The level set, its bounds and the Poisson points are arbitrary."
  },
  {
   "property": "C58",
   "status": "proved",
   "theorems": [
    "C58_not_initialised",
    "C58_failed_setup",
    "C58_saving_only_observes"
   ],
   "note": "Any number type, any history of initialize() calls."
  },
  {
   "property": "C59",
   "status": "proved",
   "theorems": [
    "C59_grid_update",
    "C59_musl_grid_update"
   ],
   "note": "Every step with particles inside the grid and no weights in the code's cut-off gap; not periodic."
  },
  {
   "property": "C60",
   "status": "proved",
   "theorems": [
    "C60_particle_update"
   ],
   "note": "Every step, USL and MUSL; not periodic."
  },
  {
   "property": "C61",
   "status": "partial",
   "theorems": [
    "C61_contact_without_musl",
    "C61_musl_refuted"
   ],
   "note": "Holds without MUSL; false with MUSL."
  },
  {
   "property": "C62",
   "status": "partial",
   "theorems": [
    "C62_shear_rate_partial",
    "C62_tip",
    "C62_refuted"
   ],
   "note": "Holds for every model except at the tip of DPMui, where the increment is stored."
  },
  {
   "property": "C63",
   "status": "partial",
   "theorems": [
    "C63_viscous_drucker_prager",
    "C63_cam_clay",
    "C63_mcc_mui",
    "C63_dp_mui_viscosity",
    "C63_simulation_partial",
    "C63_negative_friction_refuted"
   ],
   "note": "Range over whole simulations proved for explicit hardening laws; the lower bound is false for viscous Drucker-Prager under tension."
  },
  {
   "property": "C64",
   "status": "proved",
   "theorems": [
    "C64_rest_is_kept",
    "C64_rest_completes"
   ],
   "note": ""
  },
  {
   "property": "C65",
   "status": "partial",
   "theorems": [
    "C65_explicit_laws",
    "C65_path_is_flow",
    "C65_onevar",
    "C65_implicit_exponential_partial",
    "C65_implicit_sinh_partial",
    "C65_sinh_derivative_refuted",
    "C65_flow_modulus_refuted",
    "C65_three_variable_partial",
    "C65_three_variable_slope_refuted"
   ],
   "note": "Implicit hardening: the flow rule is followed with shear modulus mu, which is 2 q_prefac^2 mu only for the default q_prefac (C65_flow_modulus_refuted), and with a wrong derivative of the sinh law (C65_sinh_derivative_refuted). The shipped but unused three-variable solver has a wrong sign in its derivative unless beta or xi is zero (C65_three_variable_slope_refuted)."
  },
  {
   "property": "C66",
   "status": "proved",
   "theorems": [
    "C66_spin",
    "C66_angular_momentum",
    "C66_angular_momentum_run",
    "C66_conserved"
   ],
   "note": ""
  },
  {
   "property": "C67",
   "status": "proved",
   "theorems": [
    "C67_energy_balance",
    "C67_no_forces",
    "C67_energy_run"
   ],
   "note": ""
  },
  {
   "property": "C68",
   "status": "partial",
   "theorems": [
    "C68_energy",
    "C68_dissipation_partial",
    "C68_dissipation_refuted"
   ],
   "note": "The statement for every model is false: mu(I) Drucker-Prager with cohesion can reverse and enlarge the shear stress (C68_dissipation_refuted). Proved for the models and states named by dissipative; the Cam-Clay models and nonlinear viscosity, whose Newton iterates are only approximate, are not covered."
  },
  {
   "property": "C69",
   "status": "partial",
   "theorems": [
    "C69_elastic_limit_partial",
    "C69_elastic_limit_refuted",
    "C69_shipped_program",
    "C69_rotating_density_refuted"
   ],
   "note": "False as stated (bar wave speed); the partial theorem gives the bound that holds, the refutations are steps of the shipped programs."
  },
  {
   "property": "C70",
   "status": "partial",
   "theorems": [
    "C70_update_partial",
    "C70_simulation_partial",
    "C70_isochoric_shear_refuted",
    "C70_cohesive_mui_refuted"
   ],
   "note": "Holds except at the named trial pressures; refuted there and for mu(I) with cohesion."
  },
  {
   "property": "C71",
   "status": "proved",
   "theorems": [
    "C71_collapse_program",
    "C71_collapse_terminates",
    "C71_collapse_first_step",
    "C71_collapse_scene",
    "C71_rotating_program",
    "C71_rotating_scene",
    "C71_shipped_settings"
   ],
   "note": "For every sample set; given that no step crashes (the first step does not)."
  },
  {
   "property": "C72",
   "status": "proved",
   "theorems": [
    "C72_von_mises",
    "C72_drucker_prager",
    "C72_cam_clay",
    "C72_cam_clay_linear_guard",
    "C72_cam_clay_linear_runs"
   ],
   "note": "Nothing is claimed after an iterate that is exactly zero, where the flow rules need not be differentiable. The linear Cam-Clay guard stops the run when the return would raise the shear stress."
  },
  {
   "property": "C73",
   "status": "proved",
   "theorems": [
    "C73_stress",
    "C73_energy_exists",
    "C73_piola_kirchhoff",
    "C73_piola",
    "C73_force",
    "C73_step"
   ],
   "note": "For particles whose stored stress is that of the elastic law, which C44 shows for the particles after a step."
  },
  {
   "property": "C74",
   "status": "proved",
   "theorems": [
    "C74_step",
    "C74_run"
   ],
   "note": "Scenes of resting plates and level ground; plates with ends must be wider than the cloud. C74_run is the invariant over any number of steps."
  },
  {
   "property": "C75",
   "status": "proved",
   "theorems": [
    "C75_step",
    "C75_simulation",
    "C75_schedule"
   ],
   "note": "Over the reals; all grids of the run must fit in 32-bit node numbers. C10_binary64_refuted shows the effect of rounding."
  },
  {
   "property": "C76",
   "status": "proved",
   "theorems": [
    "C76_step",
    "C76_simulation",
    "C76_ground"
   ],
   "note": "Without periodic boundaries and without the hard-coded relocation of particles, which use absolute coordinates. Over the reals."
  },
  {
   "property": "C77",
   "status": "proved",
   "theorems": [
    "C77_step",
    "C77_run",
    "C77_parabola"
   ],
   "note": "Without obstacles and periodic boundaries, for positions at which the transfers are exact (regular_cloud, see C14)."
  },
  {
   "property": "C78",
   "status": "partial",
   "theorems": [
    "C78_step",
    "C78_run",
    "C78_stress_free",
    "C78_time_step_limits_refuted"
   ],
   "note": "Positive theorems for gentle steps; the claim that updateDt's limits guarantee it is refuted (they do not see the affine part of APIC velocities)."
  },
  {
   "property": "C79",
   "status": "proved",
   "theorems": [
    "C79_step",
    "C79_time_step"
   ],
   "note": "free space, same dt; grid and stencil regularity as in C59/C60"
  },
  {
   "property": "C80",
   "status": "proved",
   "theorems": [
    "C80_step",
    "C80_separate_bodies"
   ],
   "note": "same dt, gravity, plates and lattice are hypotheses; no periodic boundary"
  },
  {
   "property": "C81",
   "status": "partial",
   "theorems": [
    "C81_step",
    "C81_uniform_motion",
    "C81_musl_refuted"
   ],
   "note": "Proved for steps without MUSL; for MUSL the second projection uses only the particles in the box (stated in C81_step), and C81_musl_refuted shows the consequence."
  },
  {
   "property": "C82",
   "status": "partial",
   "theorems": [
    "C82_momentum",
    "C82_run",
    "C82_cells_refuted"
   ],
   "note": "Proved when Lx is a whole number (at least 8) of cells, for one step and for any number of steps, with and without MUSL. Refuted otherwise: with Lx = 10.5 dx the momentum of two particles beside the ends drops from 1 to 27/28 in one step without gravity or stress. Nothing in the code makes Lx a multiple of dx (the sampling functions compute dx from the number of particles)."
  },
  {
   "property": "C83",
   "status": "partial",
   "theorems": [
    "C83_g2p_partial",
    "C83_deformation",
    "C83_velocity",
    "C83_position",
    "C83_average",
    "C83_euler",
    "C83_p2g",
    "C83_musl",
    "C83_counter_race",
    "C83_counter_refuted",
    "C83_pbc_race",
    "C83_pbc_refuted",
    "C83_exit_race"
   ],
   "note": "The loops are race-free and their result does not depend on the interleaving, except: without MUSL two yielding particles on two threads race on the counter (C83_counter_race, for all such inputs; the count can come out as 1 instead of 2), and PBCAddParticles reads particles.x outside the critical section in which other threads push_back (C83_pbc_race, for all inputs with a periodic copy). C83_g2p_partial therefore assumes MUSL or no yielding particle; C83_deformation assumes that no particle sets the error flag (C83_exit_race: two threads that do race on the flag; the values written are equal)."
  },
  {
   "property": "C84",
   "status": "proved",
   "theorems": [
    "C84_step_size",
    "C84_loop_ends",
    "C84_frames"
   ],
   "note": "Range of settings stated in `clock_okF`; outside it `C27_binary64_clock_stalls_refuted`."
  },
  {
   "property": "C85",
   "status": "proved",
   "theorems": [
    "C85_initial_grid_covers",
    "C85_initial_grid_exists",
    "C85_weights",
    "C85_kernel"
   ],
   "note": "binary64; first grid"
  },
  {
   "property": "C86",
   "status": "partial",
   "theorems": [
    "C86_later_grids_cover_partial",
    "C86_later_grids_exist_partial",
    "C86_weights_partial",
    "C86_within_first_range",
    "C86_refuted"
   ],
   "note": "binary64; false without the exception (C86_refuted); proved outside the window and within the first range"
  },
  {
   "property": "C87",
   "status": "partial",
   "theorems": [
    "C87_wrap",
    "C87_images",
    "C87_periodic_grid_covers_partial",
    "C87_periodic_grid_exists",
    "C87_weights_partial",
    "C87_ground_refuted",
    "C87_ghost_refuted",
    "C87_right_end_refuted"
   ],
   "note": "binary64; wrap, images and termination proved; coverage false at isolated positions (three refutations), proved away from them"
  },
  {
   "property": "C88",
   "status": "partial",
   "theorems": [
    "C88_first_grid",
    "C88_later_grids_partial",
    "C88_periodic_partial",
    "C88_schedules"
   ],
   "note": "later and periodic grids: with the exceptions of C86/C87 (a particle within rounding of a cell edge outside the first range, of zero height, or of four cells from an end); quadratic splines. First grid: no exception."
  },
  {
   "property": "C89",
   "status": "partial",
   "theorems": [
    "C89_first_grid",
    "C89_later_grids_partial",
    "C89_periodic_partial"
   ],
   "note": "later and periodic grids: with the exceptions of C86/C87; quadratic splines. First grid: no exception."
  },
  {
   "property": "C90",
   "status": "partial",
   "theorems": [
    "C90_first_grid",
    "C90_later_grids_partial",
    "C90_periodic_partial",
    "C90_next_step"
   ],
   "note": "later grids with the exception of C86, periodic grids with those of C87; quadratic splines; the return to the next step for PIC/APIC without FLIP blend and MUSL. The nodal velocities after forces and boundary conditions are a hypothesis."
  },
  {
   "property": "C91",
   "status": "partial",
   "theorems": [
    "C91_first_grid",
    "C91_later_grids_partial",
    "C91_periodic_partial",
    "C91_whole_step_partial",
    "C91_resting_plates_partial",
    "C91_plates_later_partial",
    "C91_plates_periodic_partial",
    "C91_plates_whole_step_partial"
   ],
   "note": "Without objects; plates only at rest (friction in 2D only). Later grids need the particles off the cell edges (as C86); periodic grids need the particles near the box (as C87). The whole-step theorem asks for a time step limit that uses the worst nodal velocity."
  },
  {
   "property": "C92",
   "status": "proved",
   "theorems": [
    "C92_column_ghosts"
   ],
   "note": "A public member function that advanceStep does not call."
  },
  {
   "property": "C93",
   "status": "partial",
   "theorems": [
    "C93_resting_plates_partial",
    "C93_friction_3D_refuted"
   ],
   "note": "Partial: in 3D only without friction (with friction refuted: the square of the reduced first tangential component underflows and is divided by the zero square of the second). Moving plates: see C94. Terrain objects are not included."
  },
  {
   "property": "C94",
   "status": "proved",
   "theorems": [
    "C94_one_moving_plate",
    "C94_last_plate"
   ],
   "note": "No terrain objects. C94_one_moving_plate: one plate. C94_last_plate: the last of several, if it is sticking or no-slip; with several plates the later ones act on the result of the earlier ones."
  },
  {
   "property": "C95",
   "status": "partial",
   "theorems": [
    "C95_plate_rests_partial",
    "C95_zero_factor_refuted"
   ],
   "note": "Partial: reduction factors below 2^-1000 are excluded, and for zero the property is refuted."
  }
 ]
}