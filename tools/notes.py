NOTES["C06"]=("proved","For extents up to 5*10^9, the limit of the code's tolerance 1e-10.")
NOTES["C14"]=("proved","Adjacent signs are outside the grammar; the code drops the second one (C14_adjacent_signs_refuted).")
NOTES["C15"]=("proved","")
NOTES["C16"]=("proved","For terms whose body is a registered name; bodies that are products of bricks are part of C18.")
NOTES["C17"]=("proved","For names that do not contain /dt.")
NOTES["C20"]=("proved","For terms and sources that fill the slice they are given, as all terms of the library do.")
NOTES["C21"]=("partial","Proved when equations are added in the order of the fields; false otherwise (C21_other_order_refuted): steppers pair field i with equation i.")
NOTES["C22"]=("partial","The exact scheme is proved for every model (C22_euler_sequential_scheme); the documented one holds when no equation reads an earlier field and is false for coupled fields (C22_euler_coupled_refuted).")
NOTES["C23"]=("partial","Scheme proved (all stages are evaluated at the time of the start of the step); time is right under Propagate of the stepper but does not move under the solver (C23_solver_time_refuted).")
NOTES["C24"]=("proved","Transforms are any pair with the properties listed in good_transform, which the transform of the program has on every domain (C07_assumed_of_transforms); C24_euler_on_domains and C24_rk4_on_domains assume nothing about the transform.")
NOTES["C25"]=("partial","False parts: RK4 time stands still (C25_rk4_time_refuted), consecutive calls repeat epoch numbers (C25_consecutive_epochs_refuted).")
NOTES["C18"]=("partial","Proved for every sum of the grammar good_equation (any number of equations, items, factors, exponents, operators, registered terms); outside it the code evaluates something else: one theorem C18_..._refuted per kind of deviation, among them products of constants alone (C18_constants_only_refuted).")
NOTES["C19"]=("partial","False when one term registers several new derived fields (C19_several_fields_refuted); all other histories are proved.")
NOTES["C31"]=("partial","Proved for every history (any number of FieldDB objects and crashes) on a new file with domains of at least two nodes and one dimension; false when two runs draw the same random number (C31_same_number_drawn_refuted) and on one-node domains (C31_one_node_domain_refuted).")
NOTES["C32"]=("partial","False for every domain: positionId is the node index, positions.id starts at 1. C32_documented_join_refuted gives the exact result of the documented join and the join that is right, for every history.")
NOTES["C33"]=("partial","False for models with several fields (C33_crash_between_fields_refuted). Proved: whole fields at any crash point, other steps survive, single-field models are atomic.")
NOTES["C34"]=("partial","The exact acceptance condition is proved; it is equality of domains for equal dimension, and false when a 2D domain meets a 3D file (C34_two_in_three_dimensions_refuted).")
NOTES["C35"]=("proved","For one prefix; files of different prefixes can coincide (C35_prefixes_collide_refuted). Uint8IO uses the same file names as Float64IO.")
NOTES["C36"]=("partial","Proved in IEEE binary64 arithmetic. False parts: the maximum is mapped to 254 for some fields (C36_max_is_255_refuted), uniform fields of large values give undefined bytes (C36_large_uniform_field_refuted).")
NOTES["C37"]=("proved","encoding/csv is trusted to give back the records written; numbers are exact rationals. Only the first field's length is checked (C37_longer_field_truncated_refuted).")
NOTES["C38"]=("proved","The XML encoder is not modelled.")
NOTES["C53"]=("partial","True in two dimensions, false in three (C53_three_dimensions_refuted): the third coordinate varies slowest in memory.")
NOTES["C39"]=("partial","EquivalentMiller and the 2D count are right for all indices; NumEquivalent3D is right exactly when not |H|=|L|<>|K| (C39_count_3d_refuted).")
NOTES["C40"]=("proved","The starting point must have at least one coordinate (C40_empty_panics).")
NOTES["C41"]=("partial","Duality and Miller vectors proved in every dimension; CellChange is right to first order exactly for symmetric changes of the cell (C41_cell_change_iff_symmetric_partial, C41_cell_change_shear_refuted). The inverse returned by gonum is taken to be the inverse.")
NOTES["C54"]=("partial","Proved for the cubic cells; false for Triangular2D (C54_triangular_refuted): its second vector is (a/2, a/2).")
NOTES["C55"]=("partial","Right for components 0 and 1; with larger components the area of the intercept triangle is used and the result is too large (C55_density_right_iff, C55_density_012_refuted); negative components panic.")
NOTES["C45"]=("partial","Isotropic and Voigt tensors, rotation, contraction and energy proved for all constants and orthogonal matrices. CubicMaterial lacks the minor symmetries (C45_cubic_minor_symmetry_refuted); RotationMatrix turns the other way about axis 1 (C45_sense_of_rotation_refuted).")
NOTES["C46"]=("partial","Proved for every frequency whose components keep 1e-10 away from the Nyquist frequency, where Strain drops components, and tensors with the minor symmetry; false for CubicMaterial (C46_cubic_material_refuted). gonum's Solve is taken as an exact solver of regular systems.")
NOTES["C56"]=("partial","False (C56_documented_force_refuted): the frequency of the force component is used for every j. C56_force_partial is the exact result.")
NOTES["C07"]=("partial","Round trip, linearity and Parseval proved for every domain; the symmetry of real fields holds for 2D and cubic domains and fails for other 3D domains (C07_real_symmetry_noncubic_refuted) because the transform is handed the extents in an order Freq and ConjugateNode do not use.")
NOTES["C08"]=("partial","True in 2D; in 3D true exactly for cubes (C08_three_dimensions_iff_cubic).")
NOTES["C26"]=("proved","The transform is any one with the properties proved in C07_transform_is_unitary.")
NOTES["C27"]=("proved","")
NOTES["C28"]=("partial","Proved for one field (any node count); with several fields each field is transformed with its own part of the orientation, which is not a unit vector (C28_several_fields_refuted).")
NOTES["C29"]=("partial","True of the first field for every model, false of the others (C29_own_force_second_field_refuted): the force of field 0 is used for all.")
NOTES["C30"]=("partial","Packing proved; a zero of the residual satisfies the exponential-integrator equation with the new fields but the old time (C30_new_time_refuted), which is not the documented scheme (C30_documented_scheme_refuted). The update is the exact solution unless 0 < |a| < 1e-5, where the code switches to a trapezoidal formula.")
NOTES["C09"]=("partial","Proved for domains whose half diagonal is below sqrt(2^31-1); label 0 is given where all seeds are farther (C09_all_domains, C09_large_domain_refuted).")
NOTES["C10"]=("proved","BoxKernel averages 2(Width/2+1)+1 nodes per axis, more than Width (C10_box_window).")
NOTES["C11"]=("partial","Proved on 3D grids and for transformations whose first two rows do not read z; false on 2D grids otherwise (C11_draw_leaks_refuted).")
NOTES["C12"]=("partial","Order of Append proved for 3D points and for 2D points when the second map does not read z; false otherwise (C12_append_2d_refuted). All other parts proved.")
NOTES["C13"]=("proved","Dims is a value in the model; NewGrid keeps the caller's slice of dimensions.")
NOTES["C57"]=("proved","The picture turns by minus the angle when axis 0 is x and axis 1 is y: node p reads the position turned by plus the angle.")
NOTES["C58"]=("proved","")
NOTES["C43"]=("partial","Derivative and expansion proved. The split adds up for Prefactor 1; for other prefactors the nonlinear part misses the Prefactor (C43_split_prefactor_refuted, C43_split_for_every_prefactor).")
NOTES["C44"]=("proved","For peaks with positive PlaneDensity*NumPlanes, which the predefined lattices have.")
NOTES["C47"]=("proved","The doc comment says +1 where the code (correctly) uses +0.5.")
NOTES["C48"]=("partial","1 at zero, at most 1, non-increasing for every order; non-negative for orders 1-3, negative at the end of the table of order 4 (C48_non_negative_refuted). ApplyModalFilter passes |f|*2/pi, which stays below 3/5, so no mode is removed.")
NOTES["C49"]=("partial","Exactly conserved when forcing/indicator is constant, otherwise up to the stated bound; exact conservation is false (C49_exact_conservation_refuted), and the first two steps are uncontrolled. Proved for any number of fields: exact formula for the change in each Euler step with the drift bound, exact formula for an RK4 step, and exact conservation with RK4 when rate and indicator are steady (RK4 corrects with the indicator of its last stage only, so nothing stronger holds). Assumes that the multiplier term is the last of its equation, that no modifier acts on that equation and that its implicit terms vanish at zero frequency.")
NOTES["C59"]=("proved","The ideal-mixture part of the flow statement needs Prefactor 1 (see C43).")
NOTES["C60"]=("partial","The interpolant 2x^2-3x^3 is negative between 7m/9 and m and -1 at m, so modes there grow (C60_damps_refuted, C60_one_at_threshold_refuted).")

NOTES["C61"]=("partial","Proved for Euler and RK4 and for the terms of the package except DivGrad and TensorialHessian with cross terms on even extents, which produce imaginary parts at the Nyquist frequency (C61_divgrad_even_refuted, C61_hessian_even_refuted), and sources between nodes (C61_source_between_nodes_refuted); both terms are real when every extent is odd.")
NOTES["C62"]=("proved","Extents up to 5e9 so that the tolerance 1e-10 singles out the Nyquist frequency. DivGrad keeps the Nyquist frequency in the outer derivative.")
NOTES["C63"]=("partial","Poisson's equation carries the regularisation 2 pi 1e-16 phi of the code. In 3D entries 3 and 4 of the conductivity are swapped with respect to the documentation (C63_documented_order_refuted).")
NOTES["C64"]=("proved","")
NOTES["C65"]=("partial","Proved for symmetric tensors; the lower triangle is ignored, so the statement is false for other tensors (C65_asymmetric_tensor_refuted).")
NOTES["C66"]=("partial","Proved for odd exponents (at x = 0 for exponents from 3); false for even exponents (C66_even_exponent_refuted).")
NOTES["C42"]=("partial","The polynomial of all terms is the quadrature average; gradient and Hessian proved. The terms below 1e-4 of the largest are dropped, so what is minimised equals the average only up to the stated bound.")
NOTES["C67"]=("partial","In three dimensions the reported values are the averages the names stand for; what is minimised is the squared misfit plus a penalty only when there are fewer targets than modes. Panics with a single mode (C67_single_mode_refuted); the width formula in the comment is not the one used (C67_documented_width_refuted).")
NOTES["C50"]=("partial","False parts: a simulation without a comment is listed with the comment of the line above (C50_list_comments_refuted), --new stores nothing when there is no comment (C50_comment_update_refuted), comments of 96 bytes panic (C50_comment_96_panics), the end of long comments is lost (C50_comment_complete_refuted), single text attributes are shown empty (C50_single_text_refuted), --simid 0 lists numbers of all simulations (C50_attribute_tables_zero_refuted).")
NOTES["C51"]=("proved","Missing samples are written as zero (C51_missing_sample_refuted); negative time steps panic. C51_extension is about appendFileExtension, which the program does not call.")
NOTES["C52"]=("partial","Line plots proved for every SaveCsv file. The contour plot ignores its index table: it is right when x varies fastest, transposed or scrambled for SaveCsv files (C52_contour_saved_refuted). Option -d of lineplot is ignored (C52_fields_option_refuted). 2D files of Grid.SaveCsv cannot be read (C52_grid_file).")
NOTES["C68"]=("proved","Solve of gonum is represented by the inverse matrix.")
NOTES["C69"]=("partial","Proved for all cells of the package with a lattice parameter from 1/2 and boxes of whole cells, and for every cell whose coordinates are multiples of a length not below half of the third root of the volume; false in general, because cells closer than that to an upper side are dropped (C69_periodic_crystal_refuted). The exact set of placed cells is proved for every box.")
NOTES["C70"]=("proved","For cutoffs from 1/2; with smaller ones the loop does not end (C70_small_cutoff_refuted). The circle kernel reaches one node beyond its radius (C70_circle).")
NOTES["C71"]=("proved","")
NOTES["C72"]=("partial","All but the last clause: the concentration passed in is replaced by its inverse transform (C72_argument_kept_refuted).")
NOTES["C73"]=("partial","Proved once a step is finished, for odd extents (2D, cubes) and stresses that do not couple a 2D plane to the third axis. Refuted for the first step (the field is taken as zero) and for 2D misfits that tilt the third axis. False for even extents, where the strain of waves at the Nyquist frequency is dropped (C73_even_extent_refuted).")
NOTES["C74"]=("partial","Proved for indicators of zeros and ones and odd extents (2D, cubes); refuted for fractional indicators (C74_fractional_refuted) and even extents (C74_even_extent_refuted).")
NOTES["C75"]=("partial","Voxels, Voigt input and the value without inclusion tensor for odd box sizes. With an inclusion tensor its stiffness is used outside too (C75_inclusion_partial, C75_stiffness_in_place_refuted). The perturbed displacements are covered by C56 only. The sfft transform is represented by the same DFT, its layout by a parameter.")
NOTES["C76"]=("partial","Proved for any history when no velocity has the name of a gradient and later names are new. False for a velocity called like a gradient (C76_shadowed_velocity_refuted), for a second advection of the same field (C76_second_advection_refuted: the first then reads data from before the update), for velocity names that join to the same text (C76_joined_names_refuted) and for a second DivGrad of the same field (C76_second_divgrad_refuted: both use the second function). Scalars as velocities are not modelled.")
NOTES["C77"]=("partial","Currents registered one by one are independent; registered with the term they are all the last one (C77_term_currents_refuted). The accumulated variance is 2 Strength T dt, so the documented strength holds only for dt = 1 (C77_documented_strength_refuted). The random numbers are any uncorrelated standardised ones.")
NOTES["C78"]=("partial","Terms without bricks are accepted, and the exact condition for affine terms is proved. False in general: differences of fields and terms that vanish at the frequency (0.4, 0.4) pass (C78_difference_refuted, C78_one_frequency_refuted), constants of the model are rejected (C78_scalar_coefficient_refuted), terms that read the third frequency panic (C78_third_component_refuted).")
NOTES["C79"]=("partial","All proved but the last clause: after steps or SetFilter, SetStepper sets the time to zero and drops the filter (C79_set_stepper_restarts_refuted).")
NOTES["C80"]=("partial","All proved but the last clause: SetFloat works on a copy and changes nothing (C80_set_float_refuted).")
NOTES["C81"]=("partial","Proved when the fields come first. A field added after an equation that uses it silently changes the product to 1 (C81_late_field_refuted).")
NOTES["C82"]=("partial","Proved for terms of one kind. A name registered again as another kind keeps the first of implicit, explicit, mixed (C82_other_kind_refuted). C82_variable_names: AllVariableNames.")
NOTES["C83"]=("proved","The widths of the columns of the summary are those of the program; the statement is about the texts between the bars. C83_num_nodes: NumNodes.")
NOTES["C84"]=("proved","The transform is the exact DFT. On other three-dimensional domains the transform has the wrong layout (C07, C08). DivGrad and user functions may depend on the position when that dependence is moved too.")
NOTES["C85"]=("proved","Domains as in C84; the exchanged axes are neighbours (others are compositions).")
NOTES["C86"]=("proved","The filter enters with its value at zero frequency. The fields are overwritten one after the other, as in the program: a later equation sees the new values of fields, and derived fields of the old ones.")
NOTES["C87"]=("partial","Proved for equations in the order of the fields, for Euler steps of the first field and RK4 steps of all fields. Later fields of an Euler step see the new values of the earlier ones (C22_euler_coupled_refuted). Equation number i drives field number i whatever its left-hand side (C87_wrong_order_refuted), and a constant rate is applied to the first node only (C87_constant_pulse_refuted). Registered terms bring at most one derived field (C19, C76).")
NOTES["C88"]=("proved","Without modal filter. The equations are in the order of the fields; in another order it is false (C87_wrong_order_refuted).")
NOTES["C89"]=("proved","Without modal filter, registered terms and sources; equations in the order of the fields. C89_rk4_order_refuted shows the last sentence: the error of one RK4 step for dc/dt = -c is at least h^2/18.")
NOTES["C90"]=("proved","For transforms that preserve inner products (the exact DFT of any domain, C07).")
NOTES["C91"]=("proved","Real symbols; without modal filter, registered terms and sources; transforms that preserve inner products (the exact DFT of any domain, C07). Arithmetic is exact: rounding is not modelled.")
NOTES["C92"]=("proved","Without modal filter; equations in the order of the fields. C92_nonvacuous evaluates a step of two coupled fields in which the same field enters one equation with its old value in a product and with its new value alone.")
NOTES["C93"]=("proved","Equations in the order of the fields. Functions and registered terms correspond if they return the same values; RK4 with implicit terms that do not read fields (as in C87).")
NOTES["C94"]=("proved","Equations in the order of the fields; functions and registered terms that are mentioned must read only fields of the set. RK4 with implicit terms that do not read fields (as in C87).")
NOTES["C95"]=("partial","True of RK4 (C95_rk4_partial), false of Euler (C95_euler_refuted): each field is stepped with the new values of the fields declared before it. C93_euler covers changes that keep the order of the fields.")
NOTES["C96"]=("partial","Proved for Euler if no product without Laplacian is a single field (C96_euler_partial) and for RK4 if none is linear in the field of its own equation (C96_rk4_partial). Otherwise false (C96_linear_exchange_refuted, C96_linear_exchange_rk4_refuted): a linear exchange between two fields is implicit in one equation and explicit in the other. Without modal filter; equations in the order of the fields; registered terms must carry a Laplacian.")
NOTES["C97"]=("partial","Proved if powers of real values that occur are real (C97_euler_partial, C97_rk4_partial), which holds for whole exponents (C97_natural_powers, C97_whole_exponents). False for fractional powers of negative values (C97_fractional_power_refuted). Two- and three-dimensional domains with the layout of C61; RK4 with implicit terms that do not read fields. With ImplicitEuler fields are always real (C97_implicit).")
NOTES["C98"]=("proved","Equations of products (no registered terms), in the order of the fields, without modal filter; exact arithmetic; RK4 with implicit terms that do not read fields (trivial without registered terms). C98_unique: the equations determine the fields, so the limit does not depend on the choice of the solution.")
NOTES["C99"]=("partial","RK4: proved for every model (C99_continued_rk4). Euler: proved if terms and sources do not depend on time (C99_continued_euler_partial); otherwise false because the clock of a new solver starts at 0 (C99_sources_refuted). Fields are handed over exactly (as complex numbers); C35 is about files and C102 combines both.")
NOTES["C100"]=("partial","Euler: proved (C100_euler). RK4: its clock stands still under Solve, so runs converge to the solution of the equations with the sources of time 0 (C100_rk4_frozen), hence to the solution if nothing depends on time (C100_rk4_partial), and not to the solution otherwise (C100_rk4_refuted, on every domain). Without registered terms and modal filter (as C98).")
NOTES["C101"]=("partial","Fields: proved for every stepper (C101_field). Registered functions with Euler: the monitor holds a Fourier amplitude of the function before the last step of the epoch (C101_function_partial), for example zeros for a function that is 1 everywhere (C101_function_refuted). With RK4 it is the same amplitude of the function at the fields that the last stage of the last step predicts (C101_function_rk4_partial, C101_function_rk4_refuted), for models whose registered implicit terms do not depend on the fields.")
NOTES["C102"]=("partial","The files: proved for every stepper and model (C102_files). Continuing: proved under the conditions of C97 (real fields stay real) and, for Euler, C99 (nothing depends on time); values are among those float64 patterns stand for (C102_continued_euler_partial, C102_continued_rk4_partial). False if fields become complex, because imaginary parts are not saved (C102_imaginary_parts_refuted).")
NOTES["C103"]=("proved","C103_energy is the general statement (one exponent p for each field, no sources, no registered terms, no modal filter, values in a set on which the curvature is bounded); C103_allen_cahn and C103_cahn_hilliard give explicit step sizes for values between -b and b; C103_small_steps has no hypothesis about the run. Large steps do raise the energy, on every domain (C103_large_step_refuted). Exact arithmetic.")
NOTES["C104"]=("proved","One field, default weight 1/2, coefficients of the implicit part independent of the fields, and a step size for which the implicit part can be solved (regular_step). The statement about the orientation needs a difference that is real in real space, which C97 gives for real models.")
NOTES["C105"]=("proved","Step sizes below explicit bounds: dt*B < 1 and dt/tau*2B <= 1, where B bounds the growth rates. Exact arithmetic; the square root of the normalisation is the real one.")
NOTES["C106"]=("partial","Proved but for the norms: FieldNorm belongs to the fields before the last step (C106_norm_of_new_fields_refuted) and FieldNormChange is the norm before minus the norm after the step before the last one, minus the whole norm after the first step (C106_norms). The comment on ForcePowerSpectrum describes a sum; the code gives a root mean square. Solve is modelled with the logger of SDD as callback.")
NOTES["C107"]=("proved","The solver is a parameter: finds_zero and solves_to say what is asked of it, and C107_one_iteration_suffices gives one solver that meets it. Square layouts (C07) and real symbols, so that the real parts taken by the code lose nothing. Exact arithmetic.")
NOTES["C108"]=("proved","conserved as in C24. C108_step states the change of the total for whatever the solver returns.")
NOTES["C109"]=("proved","The solver is a parameter; nearly_solves says what is asked of it and C109_fixed_point gives one that meets it (the Newton-Krylov solver itself belongs to another library). smooth as in C98, real_library and layout as in C97. Exact arithmetic.")
NOTES["C110"]=("partial","False as stated when a source depends on time: the four stages all evaluate sources at the start of the step, and C110_time_dependent_refuted shows an error of exactly T^2/(2N) for dconc/dt = t. Proved for constant sources, natural powers of the fields and models without registered functions. With implicit terms the code itself announces first order (C89). Exact arithmetic.")
NOTES["C111"]=("proved","C111_disturbed is the general statement; C111_rounding, C111_floating_point (Flocq's rounding to nearest, any precision, no overflow) and C111_initial_values are its consequences; C111_enough_digits shows that the condition on the digits can be met for every N. Rounding is of what a step leaves in the fields; errors inside a step count as disturbances of its result. C111_solutions: two solutions of the equations themselves differ by at most a constant times the difference of their initial values. Constants exist but are not computed, so nothing is claimed for one given precision and model. Registered terms and time step control are not covered, as in C98.")
NOTES["C112"]=("proved","C112_tables, C112_names and C112_wrong_domain; C112_steppers shows that Euler and RK4 keep the shape of the fields as C112_tables asks. The rational number printed for a real part may be off by eps (0 for float64 values). encoding/csv is trusted to give back the records (field names with any characters), as in C37. Imaginary parts are not saved.")
NOTES["C113"]=("proved","C113_database: the callbacks of a whole run of Solve on the database model of C31, with arbitrary calls of other objects in between (which must have or draw another number: C31_same_number_drawn_refuted shows what happens otherwise). One domain per file, at least two nodes (C31_one_node_domain_refuted). The SQL engine is trusted as in C31. Imaginary parts are not saved.")
NOTES["C114"]=("partial","False as stated when a source depends on time: both ends of the integral over a step use the source at the start of the step, and C114_time_dependent_refuted shows an error of exactly T^2/(2N) for dconc/dt = t although the residual is 0. Proved for constant sources, natural powers of the fields and models without registered functions, with implicit terms; real fields on domains whose frequency layout is square. The Newton-Krylov library enters as any solver with a bound on the residual; C114_fixed_point_partial gives one that meets the bound. Exact arithmetic.")
NOTES["C115"]=("proved","Exact arithmetic; equations without registered terms whose powers, registered functions and sources are Lipschitz on bounded sets (the hypotheses of C98). RK4 for models whose registered functions are of the kind of C87 (field_independent). C115_all_times_refuted shows that the short time of C115_short_time cannot be dropped.")
NOTES["C116"]=("partial","Two parts are false and refuted: in Euler a later field is advanced with the already filtered earlier ones, so the filtered step of a model with two fields is not the filtered result of the step (C116_euler_filter_last_refuted; proved for one field, for several fields whose equations do not read fields updated before them, and for RK4 with any number of fields); and ImplicitEuler filters its first guess, which is visible when the solver stops early (C116_implicit_no_effect_refuted; proved for solvers whose result does not depend on the guess). SDD.SetFilter always panics and is not modelled.")
NOTES["C117"]=("proved","Slices are windows of an array; the capacity of Go slices is not modelled, the wrappers never extend a slice.")
NOTES["C118"]=("partial","The last sentence is false in float64: 49 steps of length 1/49 end before 1 (C118_end_time_refuted); proved up to a relative error of 2^-51 (C118_end_time_partial). From 2^53 steps on there are steps that do not move the clock (C118_forward_limit). Binary64 operations are those of Flocq, with its proofs.")
NOTES["C119"]=("proved","encoding/json is modelled for strings, slices and structs; the text of a float64 is a parameter that is read back as the same value (writes_back). Names are in ASCII. The reader of JsonSpec.v follows RFC 8259.")
NOTES["C120"]=("partial","The last sentence is false (C120_declared_values_refuted): the item of the times holds one value more than there are epochs but declares the number of dimensions, and origin and spacing hold three values but declare two in two dimensions; all other parts are proved. encoding/xml is modelled for the structs of xdmf.go, names are in ASCII, and encoding/xml replaces control characters. The reader of XmlSpec.v follows the XML recommendation for elements, attributes, references and text.")
NOTES["C121"]=("partial","Proved without restriction for comments and (with extents below 10^16) for info. For attributes proved if names and values have at most ten characters; false otherwise: every number from 1000 on is printed with eleven characters and moves the columns after it (C121_wide_number_refuted).")
NOTES["C122"]=("partial","False for names with a carriage return before a line break, which comes back as a line break alone (C122_crlf_refuted); proved for all other names. csv.Writer is modelled for ASCII; the reader of CsvSpec.v follows RFC 4180 and the documentation of csv.Reader.")
