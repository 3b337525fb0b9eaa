{"id": "C01", "title": "Interpolation weights form a partition of unity", "statement": "For every particle position inside the grid, the weights that the transfer routines assign to the 4 (per axis) nodes starting one node left of the particle's cell sum to exactly 1, are never negative, and in 2D/3D the product weights over the 4x4 / 4x4x4 stencil sum to 1, for linear, quadratic and cubic splines.", "quantifier": "all real particle positions, grid origins, positive dx, the three spline degrees, both dimensions", "why_tests_cant": "the identity must hold for a continuum of offsets including the knots; a test samples a few", "anchors": ["src/tools.hpp: N", "src/simulation/p2g.cpp: P2G", "src/simulation/g2p.cpp: G2P"]}
{"id": "C02", "title": "Weight gradients are the derivative of the weights and reproduce linear fields", "statement": "The gradient weight used for forces and velocity gradients is the true derivative of the interpolation weight at every point where that derivative exists; over the stencil gradient weights sum to zero and reproduce the gradient of any linear field exactly, for quadratic and cubic splines at every position and for linear splines at every position not on a grid line (on a grid line the sum for linear splines is 1 instead of 0).", "quantifier": "all real offsets, spline degrees 1, 2, 3, all linear fields", "why_tests_cant": "differentiability and exact reproduction are statements about a continuum of points", "anchors": ["src/tools.hpp: N, dNdu, d2Ndu2"]}
{"id": "C03", "title": "APIC inertia constant matches the kernel", "statement": "The scalar by which the affine matrix is divided (4/dx^2 for quadratic, 3/dx^2 for cubic) is the inverse of the second moment of the kernel over the stencil, for every particle position; first moments vanish. For linear splines no such constant exists (the second moment depends on the position), which is why it is set to 0.", "quantifier": "all particle positions and positive dx", "why_tests_cant": "needs the second moment to be position independent; sampling cannot show that", "anchors": ["src/simulation/simulation.cpp: simulate (apicDinverse)", "src/tools.hpp: N"]}
{"id": "C04", "title": "The initial adaptive grid covers every particle's stencil", "statement": "After the first grid construction of a (non periodic) simulation, for every particle the 4-per-axis stencil used by particle-to-grid and grid-to-particle transfers lies inside the grid arrays and its base index is non-negative, whatever the particle cloud and whether or not a grid_reference_point is given.", "quantifier": "all non-empty particle clouds, dx>0, all reference points, 2D and 3D", "why_tests_cant": "out-of-bounds indexing depends on exact alignment of extreme particles with cells", "anchors": ["src/simulation/remesh.cpp: remeshFixedInit", "src/tools.hpp: arange"]}
{"id": "C05", "title": "Every later adaptive grid covers every particle's stencil", "statement": "At every later step, whatever the particles' motion since the start, the re-created grid again contains the full stencil of every particle, so no transfer reads or writes outside the grid arrays.", "quantifier": "all histories: all initial clouds and all later clouds, dx>0", "why_tests_cant": "the failing clouds form a thin set (displacement within a 1e-8*dx tolerance of a whole number of cells) that tests do not hit", "anchors": ["src/simulation/remesh.cpp: remeshFixedCont", "src/simulation/g2p.cpp: G2P", "src/simulation/p2g.cpp: P2G"]}
{"id": "C06", "title": "The background grid never drifts", "statement": "The nodes of every adaptively re-created grid lie on the lattice fixed by the first grid: each node coordinate differs from the first grid's first node by a whole multiple of dx, and consecutive nodes are dx apart.", "quantifier": "all histories of particle motion", "why_tests_cant": "requires reasoning over an unbounded number of re-meshings", "anchors": ["src/simulation/remesh.cpp: remeshFixedCont, remeshFixedInit", "src/tools.hpp: arange"]}
{"id": "C07", "title": "Node numbering is a bijection onto the grid arrays", "statement": "The linear index of node (i,j[,k]) is a bijection between in-range node coordinates and 0..grid_nodes-1, provided the node count fits in 32 bits, and the row order of the saved grid file is that same numbering, so saved position and saved velocity/mass belong to the same node.", "quantifier": "all grid sizes, all indices", "why_tests_cant": "holds for all sizes; also exposes the 32-bit precondition", "anchors": ["src/simulation/simulation.hpp: ind", "src/simulation/save_data.cpp: saveGridData", "src/simulation/explicit_euler_update.cpp"]}
{"id": "C08", "title": "Particle-to-grid transfer conserves mass", "statement": "After particle-to-grid transfer the masses on the grid sum to number of particles times particle mass, up to the contributions below the 1e-25 weight threshold (at most 16e-25 resp. 64e-25 of a particle mass per particle), so the built-in mass check never reports a violation.", "quantifier": "all particle clouds whose stencils are in the grid, all schedules, 2D and 3D", "why_tests_cant": "a sum over arbitrary clouds and all thread schedules", "anchors": ["src/simulation/p2g.cpp: P2G", "src/simulation/simulation.cpp: checkMassConservation"]}
{"id": "C09", "title": "Particle-to-grid transfer conserves momentum", "statement": "Total grid momentum after the transfer equals total particle momentum for PIC/FLIP and for APIC/AFLIP with any affine matrices, up to the contributions below the 1e-25 weight threshold, for which an explicit bound holds.", "quantifier": "all clouds, velocities, affine matrices, flip ratios, schedules", "why_tests_cant": "quantifies over all states and schedules", "anchors": ["src/simulation/p2g.cpp: P2G", "src/simulation/simulation.cpp: checkMomentumConservation"]}
{"id": "C10", "title": "Transfer results do not depend on the thread schedule", "statement": "In exact arithmetic the grid produced by particle-to-grid (and by the MUSL re-projection) is the same for every number of threads, every assignment of particles to threads and every order in which threads enter the critical section; in IEEE double arithmetic this bitwise reproducibility does not hold.", "quantifier": "all partitions of the particles, all merge orders", "why_tests_cant": "the schedules are not controllable from a test", "anchors": ["src/simulation/p2g.cpp: P2G", "src/simulation/musl.cpp: MUSL"]}
{"id": "C11", "title": "Grid velocities are averages", "statement": "Without affine terms the velocity of every massive node after the transfer is a convex combination of the velocities of the particles that touch it, so its components stay within the particles' range; every massless node has velocity exactly zero.", "quantifier": "all clouds, PIC/FLIP mode", "why_tests_cant": "a bound over all configurations", "anchors": ["src/simulation/p2g.cpp: P2G"]}
{"id": "C12", "title": "Uniform motion and free fall are exact", "statement": "If all particles move with one common velocity U, are stress free and carry no affine part, and there is no obstacle, one time step gives every particle the velocity U+dt*g and moves it by dt times that velocity, and without plasticity leaves the deformation gradients unchanged, for every flip_ratio and both USL and MUSL (whenever no stencil weight lies in (0,1e-25] and, with linear splines, no coordinate lies on a grid line). With zero gravity this is uniform motion.", "quantifier": "all clouds, all velocities, all flip ratios", "why_tests_cant": "frame invariance quantifies over all velocities and clouds", "anchors": ["src/simulation/p2g.cpp", "src/simulation/g2p.cpp", "src/simulation/position_update.cpp", "src/simulation/musl.cpp"]}
{"id": "C13", "title": "APIC transfer preserves affine velocity fields", "statement": "With flip_ratio<0 and quadratic or cubic splines, a full time step of a stress-free cloud whose particle velocities are an affine function c+A*x of position, with matching affine matrices, leaves that velocity field and the affine matrices exactly as they were (plus dt*g on the velocities), moves each particle with its velocity, and advances the elastic deformation gradient to (I+dt*A)*F; for both USL and MUSL.", "quantifier": "all affine fields, clouds, quadratic and cubic splines", "why_tests_cant": "all affine fields at all positions", "anchors": ["src/simulation/p2g.cpp: P2G", "src/simulation/g2p.cpp: G2P"]}
{"id": "C14", "title": "Momentum balance of a full time step", "statement": "With no obstacles, one full time step changes the total particle momentum by exactly total mass times gravity times dt, whatever the stresses, deformation, affine matrices and flip_ratio (whenever no stencil weight lies in (0,1e-25]).", "quantifier": "all states, all flip ratios", "why_tests_cant": "internal forces must cancel for all stress states", "anchors": ["src/simulation/explicit_euler_update.cpp", "src/simulation/p2g.cpp", "src/simulation/g2p.cpp", "src/simulation/position_update.cpp"]}
{"id": "C15", "title": "flip_ratio selects the documented velocity blend", "statement": "The new particle velocity is flip*(v+dv_flip)+(1-flip)*v_pic for flip_ratio in [0,1], the same blend with -flip_ratio for [-1,0), and v_pic below -1; 0 gives pure PIC, 1 pure FLIP, -1 pure AFLIP; with MUSL and with USL the velocity is blended exactly once per step and with the same formula.", "quantifier": "all flip ratios, all states, USL and MUSL", "why_tests_cant": "must hold for each ratio and in both code paths", "anchors": ["src/simulation/position_update.cpp", "src/simulation/musl.cpp"]}
{"id": "C16", "title": "Material-induced friction on the grid is an average", "statement": "With use_mibf the friction used at every massive node is a weighted average of the particles' internal friction coefficients, hence between their minimum and maximum; the friction value written for every node of a saved grid is a finite number.", "quantifier": "all clouds, all friction values", "why_tests_cant": "massless nodes occur depending on the cloud", "anchors": ["src/simulation/p2g.cpp: P2G", "src/simulation/save_data.cpp: saveGridData"]}
{"id": "C17", "title": "No-slip boundaries impose the object's velocity", "statement": "Every grid node whose predicted position is inside a no-slip object leaves the collision step of that object with exactly the object's velocity (zero for terrain objects, the plate's velocity for plates).", "quantifier": "all nodes, velocities, objects, plate velocities, 2D and 3D", "why_tests_cant": "all positions and velocities", "anchors": ["src/simulation/boundary_collision.cpp"]}
{"id": "C18", "title": "Slip boundaries prevent penetration", "statement": "After processing a colliding slip boundary the node's velocity relative to the object has no component into the object; SlipStick removes the normal component completely; SlipFree leaves a separating node unchanged.", "quantifier": "all velocities, unit normals, friction values >= 0, all plate types", "why_tests_cant": "a sign condition over all velocities", "anchors": ["src/simulation/boundary_collision.cpp", "src/objects/object_plate.hpp"]}
{"id": "C19", "title": "Coulomb friction law at terrain objects and 2D plates", "statement": "When a node moves into a slip boundary with relative normal speed vn and friction mu, the tangential relative velocity keeps its direction and its magnitude becomes max(0, vt - mu*vn): it is never reversed and never increased.", "quantifier": "all velocities, frictions >= 0, unit normals", "why_tests_cant": "needs exactness at the stick/slip transition and all directions", "anchors": ["src/simulation/boundary_collision.cpp"]}
{"id": "C20", "title": "Coulomb friction law at 3D plates", "statement": "The same friction law holds for axis-aligned plates in 3D: both tangential components are scaled by the same factor so that the tangential speed becomes max(0, vt - mu*vn).", "quantifier": "all velocities with two tangential components, all plate types", "why_tests_cant": "the 3D build is not exercised by the tests; the deviation needs both tangential components non zero", "anchors": ["src/simulation/boundary_collision.cpp (THREEDIM)"]}
{"id": "C21", "title": "Boundaries never add kinetic energy", "statement": "Collision with any single object never increases the kinetic energy of a node measured in the frame of that object, for every boundary type and plate type in 2D and 3D and every friction coefficient >= 0; with only resting objects a node's speed never increases over the whole sequence of objects.", "quantifier": "all sequences of objects, all velocities", "why_tests_cant": "an inequality over all sequences of obstacles", "anchors": ["src/simulation/boundary_collision.cpp"]}
{"id": "C22", "title": "Nodes away from objects are untouched, and the last object wins", "statement": "A node whose predicted position is outside all objects keeps its velocity; in general the final velocity satisfies the contact condition of the last object in list order that contains the node. It need not satisfy the conditions of earlier objects.", "quantifier": "all object lists", "why_tests_cant": "arbitrary lists of objects", "anchors": ["src/simulation/boundary_collision.cpp"]}
{"id": "C23", "title": "Terrain normals are unit outward normals of the level set", "statement": "For the analytic terrains (ground, curve, bump, ramp, gate, silo) the reported normal has length one and is the normalised gradient of a function that is negative or zero exactly inside the terrain and positive outside; all components are defined in 2D and in 3D.", "quantifier": "all points", "why_tests_cant": "all points of space; the third component is only visible in 3D builds", "anchors": ["src/objects/object_ground.hpp", "src/objects/object_curve.hpp", "src/objects/object_bump.hpp", "src/objects/object_ramp.hpp", "src/objects/object_gate.hpp", "src/objects/object_silo.hpp"]}
{"id": "C24", "title": "Moving plates follow their prescribed velocity", "statement": "Over any number of steps a plate's position is its initial position plus the sum of dt times its current velocity, its lateral extent keeps its width, and its velocity is v/vmin_factor while time < load_factor*frame_dt and v afterwards, also in the velocity used for collisions.", "quantifier": "all step sequences, all plate types", "why_tests_cant": "accumulates over arbitrarily many steps", "anchors": ["src/objects/object_plate.hpp: move", "src/simulation/simulation.cpp: moveObjects"]}
{"id": "C25", "title": "Time step limits", "statement": "Every time step satisfies min_dt <= dt, dt <= max(min_dt, cfl_elastic*dx/wave_speed), dt <= max(min_dt, time left in the frame), dt <= max(min_dt, time left in the simulation), and, for every particle faster than 1e-10 (slower ones count as being at rest), dt times its speed <= cfl*dx unless dt=min_dt.", "quantifier": "all particle velocity sets, all parameters, every step", "why_tests_cant": "all states and parameter values", "anchors": ["src/simulation/update_dt.cpp: updateDt"]}
{"id": "C26", "title": "Output frames are complete, ordered and on time", "statement": "A simulation that ends normally writes particle frames 0,1,...,end_frame, none skipped and in order (and the last one a second time), frame 0 at time 0 and each frame k>=1 at a simulated time in (k/fps-1.1*min_dt, k/fps] (frame times do not drift), whatever the velocities during the run, provided 1/fps >= 1.1*min_dt; an aborted simulation has written frames 0..k where k is the frame in which it stopped.", "quantifier": "all runs: all sequences of particle speeds, all fps, end_frame", "why_tests_cant": "frame bookkeeping over unbounded runs", "anchors": ["src/simulation/simulation.cpp: simulate", "src/simulation/update_dt.cpp: updateDt", "src/simulation/save_data.cpp: saveParticleData"]}
{"id": "C27", "title": "Simulations terminate", "statement": "simulate() ends (or hits undefined behaviour) after at most final_time/min_dt time steps, whatever the particle velocities, provided user-defined objects return.", "quantifier": "all sequences of particle speeds", "why_tests_cant": "liveness over all runs; the floating-point stall needs large times and tiny steps", "anchors": ["src/simulation/simulation.cpp: simulate", "src/simulation/update_dt.cpp: updateDt"]}
{"id": "C28", "title": "Guard conditions of simulate", "statement": "simulate() does nothing observable beyond a message when initialize() was not called, when a plastic model is combined with a non-Hencky elastic model, or when setup failed; after a fatal error raised during a step no further frame is written.", "quantifier": "all configurations and error steps", "why_tests_cant": "all combinations of configuration and failure time", "anchors": ["src/simulation/simulation.cpp: simulate, createDirectory"]}
{"id": "C29", "title": "Gravity ramp", "statement": "With gravity_special the gravity applied in a step starting at time t is the user's gravity times t/gravity_time before gravity_time and the user's gravity afterwards; it never exceeds the user's gravity in magnitude. Without gravity_special it is always the user's gravity.", "quantifier": "all times and gravity vectors", "why_tests_cant": "all times", "anchors": ["src/simulation/update_dt.cpp: updateDt"]}
{"id": "C30", "title": "Periodic ghost particles are removed without trace", "statement": "Adding and then deleting the periodic ghost particles restores positions, velocities, deformation gradients, affine matrices, stresses and the particle count exactly, for every order in which threads append ghosts.", "quantifier": "all clouds, all interleavings of the appending loop", "why_tests_cant": "append order is scheduler dependent", "anchors": ["src/simulation/pbc.cpp: PBCAddParticles, PBCDelParticles"]}
{"id": "C31", "title": "Periodic wrap keeps particles in the domain", "statement": "With pbc, a particle displaced by at most Lx in a step ends in [0,Lx] and at a position congruent to its displaced position modulo Lx; a particle inside the domain is not moved.", "quantifier": "all positions and displacements <= Lx", "why_tests_cant": "all positions", "anchors": ["src/simulation/position_update.cpp: positionUpdate"]}
{"id": "C32", "title": "Every particle near a periodic boundary has its periodic image", "statement": "With pbc, for every particle in [0,Lx] the transfer sees its image shifted by +Lx if it is within 4 cells of the left boundary and by -Lx if it is within 4 cells of the right boundary, carrying the same velocity, stress, affine matrix and friction.", "quantifier": "all positions, all Lx>0, dx>0", "why_tests_cant": "fails only at the boundary value, for narrow domains or with use_mibf", "anchors": ["src/simulation/pbc.cpp: PBCAddParticles", "src/simulation/p2g.cpp: P2G"]}
{"id": "C33", "title": "The periodic grid covers all particles and ghosts", "statement": "With pbc the fixed grid contains the stencils of all particles and ghosts whose x lies in [-4dx, Lx+4dx) and whose y (and z) lies in [0, Ly+4dx) (and [-4dx, Lz+4dx)); below y=0 that guarantee ends.", "quantifier": "all positions", "why_tests_cant": "alignment of particles with the grid boundary", "anchors": ["src/simulation/remesh.cpp: remeshFixed", "src/simulation/pbc.cpp"]}
{"id": "C34", "title": "Elastic states are left alone", "statement": "For every plastic model, a trial state on or inside the yield surface keeps its deformation gradient and its accumulated plastic strains.", "quantifier": "all trial states, all models and parameters", "why_tests_cant": "all stress states", "anchors": ["src/simulation/plasticity.cpp: plasticity"]}
{"id": "C35", "title": "Von Mises return mapping", "statement": "With VM, after the stress update the saved shear stress q is at most q_max, equal to q_max if the trial state exceeded it, the saved pressure equals the trial pressure and the plastic shear strain grows by exactly the removed deviatoric strain.", "quantifier": "all trial states and parameters", "why_tests_cant": "all stress states", "anchors": ["src/simulation/plasticity.cpp (VM)", "src/simulation/save_data.cpp: saveParticleData"]}
{"id": "C36", "title": "Drucker-Prager return mapping", "statement": "With DP, after the stress update the saved pressure p and shear stress q satisfy q <= M*p + q_cohesion (up to the 1e-10 tip tolerance); states beyond the tip are sent to the tip p=-q_cohesion/M, q=0, others keep p and get q = M*p+q_cohesion.", "quantifier": "all trial states, M>0, q_cohesion>=0", "why_tests_cant": "all stress states", "anchors": ["src/simulation/plasticity.cpp (DP)"]}
{"id": "C37", "title": "Softening Drucker-Prager return mapping", "statement": "With DPSoft every trial state takes exactly one of the three cases tip, elastic, shear; after the update q satisfies the softened (and volume-shifted) yield condition, cohesion only decays, the volume correction is reset on every non-dilating step.", "quantifier": "all trial states and history variables", "why_tests_cant": "all stress states and histories", "anchors": ["src/simulation/plasticity.cpp (DPSoft)"]}
{"id": "C38", "title": "Viscous return mappings solve the stated flow rule", "statement": "With VMVisc/DPVisc and exponent 1 the shear stress after the update solves the Perzyna (or Duvaut-Lions) equation exactly and lies between yield and trial stress; with other exponents the Newton loop either raises the fatal flag or ends with residual below 1e-2 and a non-negative plastic multiplier; with zero viscosity the rate-independent model is recovered.", "quantifier": "all trial states, viscosities, exponents, time steps", "why_tests_cant": "all states; loop outcome for every input", "anchors": ["src/simulation/plasticity.cpp (VMVisc, DPVisc, MCCVisc)"]}
{"id": "C39", "title": "Cam-Clay return mapping ends on the yield surface", "statement": "Every Cam-Clay return mapping (explicit, one-variable explicit, implicit exponential, implicit sinh) either leaves an admissible state unchanged and reports no plasticity, or ends with p in [-beta*p0,p0] and q exactly on the ellipse for the preconsolidation pressure reached, irrespective of how the Newton iteration ended.", "quantifier": "all trial states and parameters, every outcome of the iteration", "why_tests_cant": "iteration failures are rare inputs", "anchors": ["src/plasticity_helpers/*.hpp", "src/simulation/plasticity.cpp (MCC)"]}
{"id": "C40", "title": "Line search of the implicit Cam-Clay solvers", "statement": "The limited line search stops after at most 64 trials and returns either infinity (reported as fatal) or a strain for which the next plastic multiplier is admissible, or the unchanged strain; it never flips the side flag except to mark rejection.", "quantifier": "all inputs", "why_tests_cant": "termination and contract for every input", "anchors": ["src/plasticity_helpers/limited_search_exponential.hpp", "src/plasticity_helpers/limited_search_sinh.hpp"]}
{"id": "C41", "title": "mu(I) models: friction within bounds and consistent with stress", "statement": "With DPMui the shear rate is positive, the reported friction mu(I) lies in [mu_1,mu_2), and without cohesion and volume shift the shear stress after the update equals mu(I) times pressure; with MCCMui the shear stress after the update lies between the yield value and the trial value.", "quantifier": "all trial states, mu_1<=mu_2", "why_tests_cant": "all states", "anchors": ["src/simulation/plasticity.cpp (DPMui, MCCMui)"]}
{"id": "C42", "title": "Volume bookkeeping", "statement": "For every plastic model the product of the elastic volume ratio and exp(accumulated plastic volumetric strain) is unchanged by the plastic correction, so over any history the volume ratio J reported by the averages equals the product of det(I + dt*grad v) over all steps.", "quantifier": "all models, all histories in which no principal stretch of a trial deformation falls below 1e-4", "why_tests_cant": "accumulates over arbitrary histories", "anchors": ["src/simulation/plasticity.cpp", "src/simulation/save_data.cpp: computeAvgData"]}
{"id": "C43", "title": "Plastic shear strain never decreases", "statement": "The saved accumulated plastic shear strain eps_pl_dev of a particle never decreases during a simulation, for every plastic model.", "quantifier": "all histories, all models", "why_tests_cant": "a monotonicity over histories; violations occur at solver tolerance level", "anchors": ["src/simulation/plasticity.cpp", "src/plasticity_helpers/mcc_rma_explicit.hpp"]}
{"id": "C44", "title": "Stored stress is the elastic stress of the stored deformation", "statement": "After every step the stored Kirchhoff stress is the Hencky (or Neo-Hookean) stress of the stored elastic deformation gradient; it is symmetric, and the saved pressure and shear stress are -K*tr(eps) and e_mu*|dev eps|.", "quantifier": "all states with singular values >= 1e-4, all models", "why_tests_cant": "the inconsistent branch needs a tensile state below p_min", "anchors": ["src/simulation/plasticity.cpp", "src/simulation/save_data.cpp: saveParticleData"]}
{"id": "C45", "title": "Elasticity is objective", "statement": "Rotating the deformation rotates the stress: tau(R F) = R tau(F) R^T for both elastic models, a pure rotation has zero stress, and hydrostatic response is governed by K = lambda + 2 mu/dim.", "quantifier": "all deformations and rotations", "why_tests_cant": "all rotations", "anchors": ["src/simulation/plasticity.cpp", "src/simulation/simulation.hpp: NeoHookeanPiola, HenckyPiola", "src/simulation/simulation.cpp: calculateBulkModulus"]}
{"id": "C46", "title": "No undefined values enter the plastic update", "statement": "For every combination of plastic model, hardening law and use_mibf that simulate() accepts, the plastic update reads only initialised values.", "quantifier": "all configurations", "why_tests_cant": "reads of uninitialised memory may appear to work in tests", "anchors": ["src/simulation/plasticity.cpp (MCC, MCCMui)"]}
{"id": "C47", "title": "Reported plastic activity is current", "statement": "After each step the saved plastic shear rate delta_gamma of a particle that did not yield in that step is zero, and the printed count of yielding particles equals the number of particles projected in that step, for every thread schedule.", "quantifier": "all schedules and histories", "why_tests_cant": "race and stale data depend on schedule and history", "anchors": ["src/simulation/g2p.cpp: G2P", "src/simulation/deformation_update.cpp", "src/simulation/plasticity.cpp"]}
{"id": "C48", "title": "Regular sampling fills the box", "statement": "regularSampleParticles creates one particle at the centre of each of the floor(L/s) cells per axis, all inside the box, pairwise at least s apart, each of volume s^d and mass rho*s^d with s = dx/ppc^(1/d); the total sampled volume is at most the box volume and falls short by at most one layer of cells; cropping keeps exactly the particles inside the shape.", "quantifier": "all box sizes, dx, ppc", "why_tests_cant": "all sizes", "anchors": ["src/sampling/regular_sampling_particles.hpp"]}
{"id": "C49", "title": "Random sampling assigns the whole box volume", "statement": "sampleParticles chooses dx and particle volume such that number of samples times particle volume is exactly the box volume and ppc particles share one cell volume, whatever points the Poisson sampler returns; cropping keeps exactly the samples inside the shape without changing the particle volume; all particle arrays have one entry per particle.", "quantifier": "all sample sets", "why_tests_cant": "all sampler outputs", "anchors": ["src/sampling/sampling_particles.hpp", "src/data_structures.hpp: Particles"]}
{"id": "C50", "title": "last_written.txt is trustworthy after a crash", "statement": "At every point in time, if last_written.txt names frame k then the particle file of frame k exists completely on disk.", "quantifier": "all crash points, all buffer flush behaviours", "why_tests_cant": "crash timing cannot be enumerated by tests", "anchors": ["src/simulation/save_data.cpp: saveParticleData", "src/simulation/simulation.cpp: simulate"]}
{"id": "C51", "title": "Particle arrays stay consistent", "statement": "At every step of every run that does not hit undefined behaviour all per-particle arrays keep one entry per particle and the particle count never changes between steps, with and without periodic ghosts.", "quantifier": "all runs", "why_tests_cant": "all histories", "anchors": ["src/data_structures.hpp", "src/simulation/simulation.cpp: advanceStep", "src/simulation/pbc.cpp"]}
{"id": "C52", "title": "Averages are volume averages", "statement": "computeAvgData returns the volume-weighted averages of Cauchy and Kirchhoff stress with particle volume proportional to J, and the mean J; a uniform state is reproduced exactly.", "quantifier": "all states with positive total volume", "why_tests_cant": "all states", "anchors": ["src/simulation/save_data.cpp: computeAvgData"]}
{"id": "C53", "title": "A time step never leaves its arrays", "statement": "From every consistent state whose grid (as made by the remesher for this step) is usable and covers the particles and their periodic images, a full time step reads and writes no array out of range, overflows no index and reads no uninitialised variable, for every schedule of its parallel loops; the first step of a simulation without periodic boundaries satisfies these conditions for every non-empty cloud within 100 cells of the origin.", "quantifier": "all states, schedules, parameters, USL and MUSL, with obstacles and plates", "why_tests_cant": "undefined behaviour may be invisible in tests and depends on all positions and schedules", "anchors": ["src/simulation/simulation.cpp: advanceStep", "src/simulation/p2g.cpp", "src/simulation/g2p.cpp", "src/simulation/musl.cpp", "src/simulation/remesh.cpp"]}
{"id": "C54", "title": "Saved particle files contain the documented columns", "statement": "saveParticleData writes one row per particle with the documented columns in their documented order, each holding that particle's own value: position, velocity, history variables, pressure -tr(tau)/d and shear stress of its stored stress, and mu(I) and viscosity columns exactly for the models that have them, whatever the schedule of the parallel loop that computes the stresses.", "quantifier": "all states, parameters and loop schedules", "why_tests_cant": "all particle counts and interleavings", "anchors": ["src/simulation/save_data.cpp: saveParticleData"]}
{"id": "C55", "title": "Saved grid files contain every node once, with its own position", "statement": "saveGridData writes one row per node of the current grid; the row of node (i,j,k) holds that node's coordinates, velocity, mass and friction; every node appears exactly once. This holds at every save of a running simulation.", "quantifier": "all states reachable by the simulation loop, all grids", "why_tests_cant": "all grid sizes and histories", "anchors": ["src/simulation/save_data.cpp: saveGridData"]}
{"id": "C56", "title": "VDB level sets act as obstacles", "statement": "A point is inside a VDB object exactly if the level set is not positive there. A node inside leaves the collision step satisfying the contact condition of the object's boundary type with the unit vector along the level set's gradient as normal; where the gradient vanishes a slip object does not affect the node at all and a no-slip object stops it.", "quantifier": "all level sets, points, velocities, both dimensions", "why_tests_cant": "all level sets and positions", "anchors": ["src/objects/object_vdb.hpp: inside, normal", "src/simulation/boundary_collision.cpp"]}
{"id": "C57", "title": "Sampling a VDB object", "statement": "regularSampleParticlesFromVdb places one particle at each cell centre of the bounding box that lies in the object, pairwise at least one spacing apart, inside the bounds, with volume s^d and mass rho*s^d, and makes the bounding box the domain. sampleParticlesFromVdb chooses dx and the particle volume so that the samples share the volume of the bounding box, and keeps exactly the samples in the object.", "quantifier": "all level sets, bounds, ppc, dx, all point lists of the Poisson sampler", "why_tests_cant": "all objects and sizes", "anchors": ["src/sampling/regular_sampling_particles_vdb.hpp", "src/sampling/sampling_particles_vdb.hpp", "src/objects/object_vdb.hpp: bounds"]}
{"id": "C58", "title": "initialize() guards the simulation and saving only observes it", "statement": "Without initialize() simulate() does nothing. If any initialize() failed to set up its output directory, simulate() does nothing, even after a later successful initialize(). A simulation initialised not to save writes no file and goes through the same states and stops in the same way as one that saves.", "quantifier": "all call histories of initialize, all parameters, states, schedules", "why_tests_cant": "all call histories and executions", "anchors": ["src/simulation/simulation.cpp: initialize, createDirectory, simulate"]}
{"id": "C59", "title": "A time step obeys the MPM grid equations", "statement": "After a step without MUSL every grid node carries the B-spline-weighted mass of all particles, zero velocity if it has none, and otherwise the mass average of the particle velocities (with their affine part for APIC) accelerated by gravity and by the internal force -V0 sum tau grad w, then corrected by the contact law with the mass average of the particle friction. With MUSL the nodes carry the mass average of the new particle velocities.", "quantifier": "all particle sets, stresses, parameters, obstacles, splines, 2D and 3D, all schedules", "why_tests_cant": "all states and schedules; the stencil must not lose or duplicate any contribution", "anchors": ["src/simulation/p2g.cpp", "src/simulation/explicit_euler_update.cpp", "src/simulation/musl.cpp"]}
{"id": "C60", "title": "A time step obeys the MPM particle equations", "statement": "In a step every particle moves with the velocity interpolated from all grid nodes, its new velocity is the configured blend of interpolated velocity and interpolated velocity increment, its affine matrix is the first moment of the grid velocities about it, and its deformation, stress and history are those of the material law driven by the gradient of the interpolated final grid velocity.", "quantifier": "all particle sets, parameters, obstacles, splines, 2D and 3D, USL and MUSL, all schedules", "why_tests_cant": "all states and schedules", "anchors": ["src/simulation/g2p.cpp", "src/simulation/position_update.cpp", "src/simulation/deformation_update.cpp"]}
{"id": "C61", "title": "Contact conditions hold on the grid at the end of a step", "statement": "A node with mass that would enter an obstacle ends the step with a velocity satisfying the contact condition of the last such obstacle (no slip, slip without separation, or no penetration), so that the material is strained by a velocity field compatible with the obstacles.", "quantifier": "all steps with any obstacles", "why_tests_cant": "all states and obstacles", "anchors": ["src/simulation/explicit_euler_update.cpp", "src/simulation/boundary_collision.cpp", "src/simulation/musl.cpp"]}
{"id": "C62", "title": "The reported plastic shear rate is the rate of the plastic shear strain", "statement": "Whenever a stress update changes a particle's accumulated plastic shear strain, the plastic shear rate stored with the particle (delta_gamma in the output) is the increase of that strain divided by the time step and the shear prefactor, for every material model.", "quantifier": "all material models and parameters, trial deformations, histories and time steps", "why_tests_cant": "all inputs of the stress update", "anchors": ["src/simulation/plasticity.cpp"]}
{"id": "C63", "title": "The reported friction coefficient and viscosity belong to the stress", "statement": "With material-induced boundary friction, particles start with the static friction coefficient of their material; an elastic update stores the static coefficient; an update that yields stores the coefficient with which the returned stress lies on the yield surface (viscous Drucker-Prager, Cam-Clay), or the rate-dependent coefficient between mu_1 and mu_2 with the matching viscosity (mu(I) models). The coefficient never falls below the static one.", "quantifier": "all material models and parameters, trial deformations and histories, and all states written by any simulation", "why_tests_cant": "all inputs and all simulations", "anchors": ["src/simulation/plasticity.cpp", "src/simulation/simulation.cpp: simulate"]}
{"id": "C64", "title": "An undisturbed body stays undisturbed", "statement": "A body at rest that is stress-free and undeformed, without gravity, next to obstacles and plates at rest, is left alone by the whole simulation: no particle moves, deforms or is counted as yielding, every saved particle frame repeats the initial one and every saved grid velocity is zero; the simulation does not abort, and (with the particles in the domain the grid is laid out for) it runs to the last frame.", "quantifier": "all material models that admit the stress-free state, all particle sets, obstacles at rest, thread schedules, numbers of steps, periodic or not, with or without MUSL", "why_tests_cant": "all particle sets and simulation lengths", "anchors": ["src/simulation/simulation.cpp: simulate, advanceStep", "src/simulation/p2g.cpp", "src/simulation/explicit_euler_update.cpp", "src/simulation/g2p.cpp", "src/simulation/plasticity.cpp"]}
{"id": "C65", "title": "Cam-Clay stress returns follow the associated flow rule", "statement": "When a trial stress lies outside the Cam-Clay ellipse, the returned pressure is the result of Newton's method on the associated flow equations (pressure and shear relax along the gradient of the yield function with the elastic moduli K and 2 q_prefac^2 mu, and the end point lies on the yield surface), started at the trial stress, with the stated safeguards, tolerance and number of iterations; a solver that does not converge reports an error or falls back as documented.", "quantifier": "all trial stresses, histories, material parameters and hardening laws", "why_tests_cant": "all real inputs; the iterates depend on every parameter", "anchors": ["src/simulation/plasticity.cpp", "src/plasticity_helpers/mcc_rma_explicit.hpp", "src/plasticity_helpers/mcc_rma_explicit_onevar.hpp", "src/plasticity_helpers/mcc_rma_implicit_exponential_onevar.hpp", "src/plasticity_helpers/mcc_rma_implicit_sinh_onevar.hpp"]}
{"id": "C66", "title": "Affine transfers conserve angular momentum", "statement": "With affine transfers (flip_ratio < -1) and quadratic or cubic splines, a time step away from obstacles changes the total angular momentum of the particles (orbital part plus the spin of their affine velocity fields) by exactly dt times the torque of gravity; internal forces, the transfers, the thread schedule and the choice of USL or MUSL do not change it. Over any number of steps the changes add up, and without gravity angular momentum is conserved.", "quantifier": "all particle sets with symmetric stress, velocities, materials, schedules and numbers of steps", "why_tests_cant": "all clouds and simulation lengths; an identity of sums over all particles and nodes", "anchors": ["src/simulation/p2g.cpp", "src/simulation/explicit_euler_update.cpp", "src/simulation/g2p.cpp", "src/simulation/position_update.cpp", "src/simulation/musl.cpp"]}
{"id": "C67", "title": "Transfers and contact never create kinetic energy", "statement": "With plain or affine PIC (flip_ratio 0 or below -1), the kinetic energy of the particles (with that of their affine velocity fields) after a step is at most the kinetic energy before it plus the work of gravity and internal forces on the grid: neither transfer, nor contact with terrain and resting plates under any condition with nonnegative friction, creates energy. Over any number of steps the works add up; stress-free particles without gravity never gain kinetic energy.", "quantifier": "all particle sets, velocities, obstacles at rest, contact conditions, splines, schedules and numbers of steps", "why_tests_cant": "an inequality over all clouds, grids and histories", "anchors": ["src/simulation/p2g.cpp", "src/simulation/explicit_euler_update.cpp", "src/simulation/boundary_collision.cpp", "src/simulation/g2p.cpp", "src/objects/object_plate.hpp"]}
{"id": "C68", "title": "Plastic flow never increases the elastic energy", "statement": "The elastic energy (Hencky strain energy) of the stress stored after the plastic correction is at most that of the trial stress before it: yielding dissipates. This holds for elastic particles, von Mises, Drucker-Prager without cohesion, or with cohesion and no volume correction, linear viscous von Mises and Drucker-Prager, and mu(I) without cohesion; with cohesion the mu(I) model can return more energy than it started with.", "quantifier": "all deformation gradients, plastic histories, parameters and time steps of those models, in 2D and 3D", "why_tests_cant": "a sign condition for every trial state and history", "anchors": ["src/simulation/plasticity.cpp"]}
{"id": "C69", "title": "The time step respects the speed of elastic waves", "statement": "A time step is never longer than the time (cfl_elastic * dx) / c an elastic compression wave needs for the fraction cfl_elastic of a cell, c = sqrt((lambda + 2 mu) / density), unless it is the minimum time step. It is false as stated: the code uses the slower wave speed of a slender bar, sqrt(E / rho), and the rho that is set at the time of the step rather than that of the particles. What holds: the step exceeds the limit by at most the factor sqrt((1-nu)/((1+nu)(1-2nu))), not at all for nu = 0, and with cfl_elastic <= 1/2 and nu <= 0.45 a wave never crosses more than a cell.", "quantifier": "all states, schedules, elastic constants, densities and grids", "why_tests_cant": "a bound for every state and every material; runs within it show nothing about the rest", "anchors": ["src/simulation/update_dt.cpp", "src/simulation/simulation.cpp", "src/mpm.cpp", "examples/cube_rotating.cpp"]}
{"id": "C70", "title": "Stored stress within the strength of the material", "statement": "In every saved frame the shear stress of each particle is at most the strength of the material at its pressure: q_max for von Mises, q_cohesion + M p for Drucker-Prager (also with zero viscosity), mu_2 p for mu(I) without cohesion. It is false where the trial pressure is exactly at the tip of the cone in the viscous and mu(I) models (no correction is made there), and for mu(I) with cohesion, where the shear stress can be reversed; it holds everywhere else.", "quantifier": "all deformation gradients, histories, initial states within the strength, schedules and numbers of steps", "why_tests_cant": "an invariant over all histories; the exceptions are single trial states", "anchors": ["src/simulation/plasticity.cpp", "src/simulation/deformation_update.cpp"]}
{"id": "C71", "title": "The shipped programs do what they say", "statement": "The granular collapse (mpm.cpp, examples/collapse.cpp), if no step crashes, ends normally with frames 0 to 20 and the last one again, 0.1 s apart within the minimum time step, with every particle in every frame within the 30 degree friction cone (C70), and does not run forever; its first step is well defined; it starts from the sampled points at rest half a cell above a ground at height zero, under gravity 9.81 downwards throughout. The rotating cube starts as a rigid rotation about its centre plus a translation, without gravity or obstacles, ends normally with its 20 frames, and no particle is ever strained plastically.", "quantifier": "all sets of sampled particles, splines, dimensions and schedules", "why_tests_cant": "the particles come from a random sampler; every sample set and schedule counts", "anchors": ["src/mpm.cpp", "examples/collapse.cpp", "examples/cube_rotating.cpp", "src/simulation/simulation.cpp"]}
{"id": "C72", "title": "Viscous stress returns are Newton's method for the viscous flow rule", "statement": "When a viscous material (von Mises, Drucker-Prager, Cam-Clay with a viscous exponent other than 1) yields, the plastic increment is the result of Newton's method on the residual of the flow rule the user selected (Perzyna or Duvaut-Lions), with its exact derivative, started at one percent of the rate-independent increment, stopped at the first iterate with a residual below 1/100 or after 60 iterations; negative iterates are replaced by 1e-10, and running out of iterations stops the simulation with an error.", "quantifier": "all trial stresses, histories, exponents, viscosities and time steps", "why_tests_cant": "all real inputs; a wrong derivative still converges on most of them, only slower or to other tolerances", "anchors": ["src/simulation/plasticity.cpp"]}
{"id": "C73", "title": "Stress and nodal forces derive from an elastic energy", "statement": "Both elastic laws are hyperelastic: the stored Kirchhoff stress gives exactly the rate of change of a strain energy (Hencky's quadratic energy of the logarithmic stretches, or the Neo-Hookean energy) in every direction of deformation, the Piola stress helpers of the simulation class are its gradient with respect to the deformation gradient, and the internal force that a time step applies to a grid node is minus the derivative of the elastic energy of all particles with respect to the displacement of that node. Elastic forces therefore neither create nor destroy energy on a closed cycle of deformations.", "quantifier": "all deformations with positive determinant, all directions, all particle sets, nodes and axes, two and three dimensions", "why_tests_cant": "a derivative identity over all matrices, also at coinciding principal stretches; finite differences sample it with error", "anchors": ["src/simulation/simulation.hpp:NeoHookeanPiola", "src/simulation/simulation.hpp:HenckyPiola", "src/simulation/plasticity.cpp", "src/simulation/p2g.cpp", "src/simulation/explicit_euler_update.cpp"]}
{"id": "C74", "title": "Particles do not sink through resting walls or the ground", "statement": "In a scene of resting plates and level ground, no particle gets deeper behind the surface of any of them than the radius of the interpolation kernel (1, 3/2 or 2 cells for the linear, quadratic and cubic kernel), in any number of steps: a particle that far in front of the surface does not reach it in one step, one that is less deep than that radius stays so, and one that was placed deeper never sinks further. This needs no limit on speed, gravity, stress or step size.", "quantifier": "all clouds, velocities, stresses, time steps, boundary conditions, friction, transfer schemes (also MUSL), spline degrees and schedules, any number of steps, two and three dimensions", "why_tests_cant": "a bound for every state and every history; a single fast particle or an unlucky position relative to the grid would break it", "anchors": ["src/simulation/boundary_collision.cpp:boundaryCollision", "src/simulation/explicit_euler_update.cpp", "src/simulation/g2p.cpp", "src/objects/object_plate.hpp", "src/objects/object_ground.hpp"]}
{"id": "C75", "title": "A whole simulation does not depend on the thread schedule or the order of the particles", "statement": "In exact arithmetic, two runs of the same set-up end in the same way (finished or aborted), after the same steps, with the same final state and the same sequence of saved files with the same contents, whatever the order in which the threads process particles and grid nodes. If the particles of the set-up are listed in another order, everything written is the same except that the particle lists are in that other order. (In double precision sums are rounded, so this is only true up to rounding: see C10.)", "quantifier": "all set-ups, materials, obstacles, boundary conditions, transfer schemes, numbers of threads, schedules (a different one in every step), permutations of the particles, any number of steps, two and three dimensions", "why_tests_cant": "the claim is about all interleavings and all permutations over a whole run; a run in a test sees one of each", "anchors": ["src/simulation/simulation.cpp:simulate", "src/simulation/simulation.cpp:advanceStep", "src/simulation/p2g.cpp", "src/simulation/g2p.cpp", "src/simulation/musl.cpp", "src/simulation/remesh.cpp"]}
{"id": "C76", "title": "Results do not depend on where the origin is", "statement": "In exact arithmetic, if a whole set-up without periodic boundaries (particles, plates, obstacles and, if one is given, the reference point of the grid) is moved by any vector, the simulation does exactly the same at the new place: it ends in the same way after the same steps, and every saved file is the same except that positions are moved by that vector; velocities, stresses, deformation and history variables are identical. In particular the adaptive background grid moves along with the material.", "quantifier": "all translation vectors (not only multiples of the grid spacing), set-ups, materials, plates (also moving ones), obstacles, transfer schemes, schedules and numbers of steps, also for runs that fail, two and three dimensions", "why_tests_cant": "a run at two places shows one vector and one set-up, and rounding hides small violations", "anchors": ["src/simulation/remesh.cpp:remeshFixedInit", "src/simulation/remesh.cpp:remeshFixedCont", "src/simulation/p2g.cpp", "src/simulation/g2p.cpp", "src/simulation/boundary_collision.cpp", "src/objects/object_plate.hpp", "src/simulation/simulation.cpp:simulate"]}
{"id": "C77", "title": "The centre of mass of an isolated body moves like a point mass", "statement": "Without obstacles and periodic boundaries, the centre of mass and the mean velocity of the particles move exactly like a point mass under the given gravity integrated with the same time steps, whatever the body does internally (stress, plastic flow, breaking apart). For constant gravity the mean velocity is v0 + g T and the centre of mass is on the parabola x0 + v0 T + g T^2/2 up to the integration error (g/2) times the sum of the squared time steps.", "quantifier": "all bodies, initial velocities, stresses, materials, transfer schemes (PIC, FLIP, APIC, blends, MUSL), spline degrees, schedules and numbers of steps, two and three dimensions; exact arithmetic, positions without kernel weights between 0 and 1e-25", "why_tests_cant": "holds for every history of internal forces and every particle arrangement; a test sees one and can only compare up to rounding", "anchors": ["src/simulation/p2g.cpp", "src/simulation/explicit_euler_update.cpp", "src/simulation/g2p.cpp", "src/simulation/position_update.cpp", "src/simulation/update_dt.cpp"]}
{"id": "C78", "title": "Particles are not turned inside out", "statement": "While over each time step no grid node moves by more than dx/(2 dim) in any direction relative to a common translation, a particle whose deformation gradient has positive determinant keeps a positive determinant, for every material model and over any number of steps. A stress-free cloud without affine velocities satisfies that condition whenever its particles do. The program's own time-step limits do not imply the condition: they ignore the affine part of the particle velocities.", "quantifier": "all states, materials, schedules and numbers of steps in 2D and 3D; the refutation is one concrete step", "why_tests_cant": "the determinant after a step depends on every nodal velocity around the particle; tests sample a few motions, and inversion happens only for motions that a small test does not contain", "anchors": ["src/simulation/simulation.cpp: advanceStep", "src/simulation/g2p.cpp: G2P", "src/simulation/deformation_update.cpp: deformationUpdate", "src/simulation/plasticity.cpp: plasticity", "src/simulation/update_dt.cpp: updateDt"]}
{"id": "C79", "title": "Galilean invariance of a time step", "statement": "In free space (no obstacles, plates, periodic boundary or hard-coded position change) give every particle the same additional velocity U. If the time step size is the same, the particles after advanceStep are displaced by U*dt more and move faster by U, and their deformation gradients, stresses, plastic history and (APIC/affine transfers) affine matrices are exactly those of the original run.", "quantifier": "all velocities U, particle clouds, stresses and materials, all transfer schemes and spline degrees, with and without MUSL, every pair of thread schedules, in exact arithmetic", "why_tests_cant": "a test compares one boost of one cloud; the claim is for every U and every state, in each transfer scheme", "anchors": ["src/simulation/p2g.cpp:Simulation::P2G", "src/simulation/g2p.cpp:Simulation::G2P", "src/simulation/explicit_euler_update.cpp:Simulation::explicitEulerUpdate", "src/simulation/musl.cpp:Simulation::MUSL", "src/simulation/update_dt.cpp:Simulation::updateDt"]}
{"id": "C80", "title": "Locality of a time step", "statement": "Over one advanceStep a particle is influenced only by particles within two kernel radii of it (the kernel radius is 1, 3/2 or 2 grid spacings for linear, quadratic or cubic splines; the distance is per coordinate). Two simulations whose clouds agree around a particle, and differ arbitrarily beyond that distance (other positions, velocities, stresses, numbers and orders of particles, grid extents), give the particle the same new position, velocity, affine matrix, deformation gradient, stress and history, if they take the same time step and their grid nodes lie on one lattice. With MUSL the deformation and stress need agreement within four kernel radii. In particular bodies that far apart do not feel each other.", "quantifier": "all states, materials, obstacles and plates, transfer schemes and spline degrees, all thread schedules of both runs, all particle numbers, in exact arithmetic", "why_tests_cant": "the influence of far particles would have to be excluded for every far cloud; a test moves a few far particles", "anchors": ["src/simulation/p2g.cpp: P2G", "src/simulation/g2p.cpp: G2P", "src/simulation/explicit_euler_update.cpp: explicitEulerUpdate", "src/simulation/boundary_collision.cpp: boundaryCollision", "src/simulation/musl.cpp: MUSL", "src/simulation/deformation_update.cpp: deformationUpdate", "src/tools.hpp: N, dNdu"]}
{"id": "C81", "title": "A step with periodic boundaries is a step of the infinite periodic body", "statement": "With periodic boundaries, one time step treats the particles in the box as one period of a body that repeats itself along x for ever: at every node that a particle of the box can touch, mass, velocity and force balance are those of the body together with all its copies (any number of periods to the left and right), the particles move, spin and strain by the law of that body, and then each particle is put back by a whole number of periods. In particular a stress-free body in uniform motion is not deformed at the seam.", "quantifier": "every cloud inside a box at least 8 cells long, every material, spline and transfer scheme without MIBF, every thread schedule, every number of periods K >= 1, 2D and 3D", "why_tests_cant": "A test compares a few clouds with a few copies; that ghosts are enough at every node, for every number of copies and every thread interleaving, needs a sum over all copies.", "anchors": ["src/simulation/pbc.cpp: PBCAddParticles", "src/simulation/pbc.cpp: PBCDelParticles", "src/simulation/musl.cpp: MUSL", "src/simulation/simulation.cpp: advanceStep", "src/simulation/position_update.cpp: positionUpdate"]}
{"id": "C82", "title": "Momentum in a periodic box", "statement": "With periodic boundaries along x and no obstacles, transfers, internal forces and the wrapping of particles do not change the total momentum: each time step changes it by the total mass times gravity times the step size.", "quantifier": "all periodic boxes, particle clouds in the box, materials, spline degrees, transfer schemes (PIC, FLIP, affine, with or without MUSL), thread schedules and numbers of steps", "why_tests_cant": "Momentum cancels only if the node sums on both sides of the seam agree for every cloud; a test at one cell size sees one alignment of the seam with the grid.", "anchors": ["src/simulation/simulation.cpp: advanceStep", "src/simulation/pbc.cpp: PBCAddParticles", "src/simulation/remesh.cpp: remeshFixed", "src/simulation/position_update.cpp: positionUpdate", "src/sampling/sampling_particles.hpp: sampleParticles"]}
{"id": "C83", "title": "Parallel loops: no data races, and every interleaving gives the same outcome", "statement": "Each OpenMP loop of a time step - velocity update, position update, particle-to-grid, averaging on the nodes, grid update, grid-to-particle, MUSL projection, deformation update - run by any number of threads with any distribution of the iterations and any interleaving of the individual loads and stores of shared memory, never has two threads about to touch the same location of which one writes, never accesses memory outside an array, never deadlocks, always finishes, and leaves exactly the particles and nodes of the sequential loop (for the two projections: of the sequential loop with the threads merged in some order). The loop that adds periodic copies has no data race either.", "quantifier": "all numbers of threads, distributions of iterations, interleavings of single memory accesses; all particles, grids, parameters; any arithmetic", "why_tests_cant": "the number of interleavings is astronomical and a test machine exercises a handful; a data race may never show on one machine", "anchors": ["src/simulation/g2p.cpp: G2P", "src/simulation/deformation_update.cpp: deformationUpdate", "src/simulation/musl.cpp: MUSL", "src/simulation/position_update.cpp: positionUpdate", "src/simulation/explicit_euler_update.cpp: explicitEulerUpdate", "src/simulation/p2g.cpp: P2G", "src/simulation/pbc.cpp: PBCAddParticles"]}
{"id": "C84", "title": "Clock, frames and termination in double precision", "statement": "With doubles as the program uses them (IEEE binary64, every operation rounded): if the frames are at least 8 smallest time steps apart, and the simulated time is at most 2^52 smallest steps (45 s with the default 1e-14), the main loop ends after at most 4 final_time/min_dt steps; every step size is a number that respects the documented limits; the files written are frames 0,1,...,end_frame in this order, the last one again, and frame k is written within 1.2 min_dt of k/fps, up to a relative error of 2^-50. Beyond 128 s the clock can stand still (C27).", "quantifier": "every binary64 setting within the stated range, every libm, every material, scene and particle state (also with infinite or NaN speeds), every schedule and number of steps", "why_tests_cant": "rounding errors accumulate over billions of steps; no test runs that long, and the stall appears only beyond a time no test reaches", "anchors": ["src/simulation/update_dt.cpp: updateDt", "src/simulation/simulation.cpp: simulate"]}
{"id": "C85", "title": "The first grid holds every particle's stencil, in double precision", "statement": "In double precision, for every cloud of particles within 2^20 cells of the origin: laying out the first grid terminates although node coordinates are produced by repeated rounded addition; every node that either transfer visits for any particle exists in the nodal arrays (no read or write outside them), and both transfers visit the same nodes; with quadratic splines every weight is a number between 0 and 1 and a particle's weights add up to 1 up to a rounding error of at most 68*2^-52*(M+8)^2, M the extent in cells; the quadratic kernel is within 2^-51 of its exact value.", "quantifier": "all libm implementations, 2D and 3D, all clouds (any number of particles, any finite positions within M <= 2^20 cells, any reference point), all grid spacings between 2^-900 and 2^900", "why_tests_cant": "rounding can move a particle across a cell boundary or add/remove a grid line for isolated combinations of spacing and extent; no finite set of tests covers all doubles", "anchors": ["src/simulation/remesh.cpp: remeshFixedInit", "src/tools.hpp: arange", "src/tools.hpp: N", "src/simulation/p2g.cpp: P2G", "src/simulation/g2p.cpp: G2P"]}
{"id": "C86", "title": "Every later grid holds every particle's stencil, in double precision", "statement": "In double precision, each grid laid out after the first one (shifted copy of the first, by whole cells) again holds every node that either transfer visits for any particle, laying it out terminates, and the weights stay between 0 and 1 and add up to 1 up to rounding.", "quantifier": "all libm implementations, 2D and 3D, all first clouds and all later clouds within 2^20 cells of the origin, all spacings up to 2^20", "why_tests_cant": "fails only for particles that have moved outwards by a whole number of cells (within 1e-8*dx and rounding): a sampled test will practically never hit such a position, a long run may", "anchors": ["src/simulation/remesh.cpp: remeshFixedCont", "src/simulation/remesh.cpp: remeshFixedInit", "src/tools.hpp: arange", "src/simulation/p2g.cpp: P2G", "src/simulation/g2p.cpp: G2P"]}
{"id": "C87", "title": "Periodic boundaries in double precision", "statement": "In double precision: a particle that leaves the period by less than one period is put back between 0 and Lx (exactly on the right, rounded on the left) and its other coordinates do not change; with a period of at least eight cells every particle within three cells of an end has its image one period away, up to rounding; laying out the periodic grid terminates; and the grid holds every node that the transfers visit for any particle and any ghost, with weights between 0 and 1 that add up to one up to rounding.", "quantifier": "all libm implementations, 2D and 3D, all spacings between 2^-900 and 2^900, all boxes up to 2^20 cells, all finite particle positions in the box", "why_tests_cant": "the failures are single doubles: height exactly 0 with a spacing whose reciprocal rounds down, a particle one ulp less than four cells from the left end, a particle that crosses the left end by less than an ulp of Lx", "anchors": ["src/simulation/position_update.cpp: positionUpdate", "src/simulation/pbc.cpp: PBCAddParticles", "src/simulation/remesh.cpp: remeshFixed", "src/simulation/p2g.cpp: P2G", "src/simulation/g2p.cpp: G2P"]}
{"id": "C88", "title": "Mass on the grid in double precision, for every thread schedule", "statement": "In double precision, the transfer of particles to the grid never fails on a grid that covers the particles; every nodal mass is finite, not negative, and equals the particle mass times the sum of the particles' weights at that node up to a relative error of 2^-52 per addend and per thread, whatever the order in which threads and particles are processed. The nodal masses add up to n times the particle mass up to rounding. Two schedules give nodal masses that differ only by rounding, and agree on which nodes are empty.", "quantifier": "every libm, two or three dimensions, every cloud within a million cells of the origin, every number of particles and threads with fewer than 2^51 additions, every partition of the particles over threads, every processing order and every merge order; the first grid, later grids and periodic grids", "why_tests_cant": "floating-point addition is not associative: each schedule gives different bits, and a test sees one schedule", "anchors": ["src/simulation/p2g.cpp: P2G", "src/simulation/remesh.cpp: remeshFixedInit, remeshFixedCont, remeshFixed"]}
{"id": "C89", "title": "Velocities on the grid in double precision, for every thread schedule", "statement": "In double precision, whatever the threads do, every nodal velocity after the transfer to the grid is finite. With PIC or FLIP no component exceeds the largest particle velocity component V except by rounding (relative 2^-52 times twelve times the number of additions); with APIC (negative FLIP ratio) and affine parts of at most V times the spacing it is at most 35 V. In particular a node that receives only weights near 1e-25 does not divide a rounding error into a large velocity.", "quantifier": "every libm, two or three dimensions, every cloud within a million cells of the origin, every number of particles and threads with fewer than 2^43 additions, every partition and order; the first grid, later grids and periodic grids", "why_tests_cant": "nodal velocities are quotients of rounded sums whose order depends on the threads; the dangerous nodes have tiny masses and appear only for particular particle positions", "anchors": ["src/simulation/p2g.cpp: P2G", "src/simulation/simulation.cpp: apicDinverse"]}
{"id": "C90", "title": "Reading back from the grid, and moving, in double precision", "statement": "In double precision, if every nodal velocity component is finite and at most U, then every velocity a particle reads back is finite and at most U (up to 83 x 2^-52 (M+8)^2, with M the extent of the cloud in cells), every affine part is at most 5/2 U times the spacing, and no particle moves further than dt U along an axis, up to 84 x 2^-52 (M+8)^2 cells. After a PIC/APIC step the particles again satisfy what the next transfer to the grid needs.", "quantifier": "every libm, two or three dimensions, every constitutive update, every cloud within a million cells of the origin, every nodal velocity field up to 2^300, every time step in which a node moves at most one cell, every order of both loops; the first grid, later grids and periodic grids (there a particle that leaves the period comes back at the other end, between 0 and Lx)", "why_tests_cant": "the weights are rounded and need not sum to one; whether a sum of 16 or 64 rounded products can exceed the largest nodal velocity, overflow or become NaN depends on the position of every particle", "anchors": ["src/simulation/g2p.cpp: G2P", "src/simulation/position_update.cpp: positionUpdate"]}
{"id": "C91", "title": "Forces on the grid stay finite in double precision", "statement": "In double precision, when every stress component, the gravity, the time step, the particle mass and volume and the grid spacing are ordinary numbers (between 2^-100 and 2^100), the transfer to the grid followed by the explicit velocity update succeeds without objects and plates, whatever the threads do and in whatever order the nodes are visited; every node is updated exactly once, no overflow or NaN occurs, even at nodes of nearly no mass, and no nodal velocity component exceeds 36 V + 2 dt g + 10^26 dt vol T / (m h), where V, T and g bound the particle velocities, the stresses and the gravity.", "quantifier": "all particle clouds, stresses, velocities, time steps, thread schedules and node orders, in 2D and 3D, on the first grid, later grids and periodic grids, with quadratic splines", "why_tests_cant": "The division by a nodal mass close to the weight threshold 1e-25 can amplify forces by many orders of magnitude; tests with a few particles do not place one where this happens, nor under every schedule.", "anchors": ["src/simulation/p2g.cpp: Simulation::P2G", "src/simulation/explicit_euler_update.cpp: Simulation::explicitEulerUpdate", "src/tools.hpp: dNdu"]}
{"id": "C92", "title": "Ghost particles of a one-cell-wide column", "statement": "Adding the periodic ghosts of a column one cell wide gives every particle exactly one copy a cell to the right and one a cell to the left, at the same height and depth and with its velocity, deformation, affine velocity and stress; the particles themselves are unchanged, and deleting as many particles as were added restores the state exactly.", "quantifier": "all particle sets of any size, in 2D and 3D, and all grid spacings", "why_tests_cant": "The copies are appended to the arrays that are being read; a test with a few particles does not show that no copy is copied again or lost for any number of them.", "anchors": ["src/simulation/pbc.cpp: Simulation::PBCAddParticles1D", "src/simulation/pbc.cpp: Simulation::PBCDelParticles"]}
{"id": "C93", "title": "Contact with resting plates in double precision", "statement": "In double precision, at any number of resting plates (any boundary condition, any friction coefficient up to 2^100), every velocity component of a grid node ends between zero and its old value, exactly and without rounding slack, overflow or NaN, and the node does not move into any of the plates it is predicted to be behind. It is false as stated: in three dimensions with friction, a very slow node can get a velocity that is not a number.", "quantifier": "all lists of resting plates in any order, all node positions, all velocities and time steps up to 2^300, every libm; 2D with friction, 3D without", "why_tests_cant": "Friction is a difference of rounded numbers with a case distinction on their rounded products; that no combination reverses or enlarges a component, in any order of plates, is a statement about all doubles.", "anchors": ["src/simulation/boundary_collision.cpp: Simulation::boundaryCollision", "src/objects/object_plate.hpp: ObjectPlate::inside"]}
{"id": "C94", "title": "A moving plate is never entered, in double precision", "statement": "In double precision, in two and three dimensions, a grid node that is predicted to be behind a single plate moving at any velocity never ends up moving into the plate: the normal component of its new velocity, compared exactly with that of the plate, does not point into it. This holds for every boundary condition and every friction coefficient. At a no-slip plate the node takes exactly the velocity of the plate. With several plates, if the last one added is sticking or no-slip, the node behind it has exactly its normal velocity, whatever the other plates did.", "quantifier": "every plate (type, position, extent, velocity up to 2^300, boundary condition, friction of any value, also NaN), all node positions and velocities up to 2^300, every libm", "why_tests_cant": "The code subtracts the velocity of the plate, tests a rounded sign, and adds the velocity back; that two roundings never cross the velocity of the plate is a statement about all pairs of doubles.", "anchors": ["src/simulation/boundary_collision.cpp: Simulation::boundaryCollision", "src/objects/object_plate.hpp: ObjectPlate::inside"]}
{"id": "C95", "title": "A plate at rest stays in place in double precision", "statement": "A plate created with zero velocity keeps its position and its extent exactly, and stays at rest, over any number of steps, whatever the time steps, the time, the loading time and the reduction factor. It is false for a reduction factor of zero during loading: the plate then has no position after one step and stops nothing any more.", "quantifier": "all plates of any type and extent, all sequences of time steps and times, every loading time (also NaN), every reduction factor of magnitude at least 2^-1000; 2D and 3D", "why_tests_cant": "The position is updated in every step of a run of any length; any rounding error or 0/0 in one combination of factor and time would add up.", "anchors": ["src/objects/object_plate.hpp: ObjectPlate::move"]}
